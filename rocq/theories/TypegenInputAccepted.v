(** C58: servers accept the JSON written for values of generated input types. *)
From Verif Require Import Base Ast Graph DocRulesSpec CoercionTypes CoercionSpec Coercion CoercionProps ResolveProofs Json Typegen TypegenDe TypegenSpec
                          TypegenProofs TypegenInput TypegenInputSpec TypegenInputProofs TypegenInputProps.
Local Open Scope string_scope.
Local Open Scope list_scope.

Lemma oseq_entries (g : rval -> option json) (fs : list (text * rval)) kvs :
  oseq (map (fun f => option_map (fun j => (fst f, j)) (g (snd f))) fs) = Some kvs ->
  map fst kvs = map fst fs /\ forall k j, In (k, j) kvs -> exists v, In (k, v) fs /\ g v = Some j.
Proof.
  revert kvs. induction fs as [|[k v] fs IH]; cbn; intros kvs H.
  - injection H as <-. split; auto. intros k j [].
  - destruct (g v) as [j|] eqn:E; cbn in H; [|discriminate]. destruct (oseq _) as [l|] eqn:El; [|discriminate]. injection H as <-.
    destruct (IH l eq_refl) as [I1 I2]. cbn. split; [congruence|]. intros k' j' [[= <- <-]|Hin]; [eauto|]. destruct (I2 _ _ Hin) as (v' & Hv & Hg). eauto.
Qed.
Lemma oseq_total {A B} (g : A -> option B) l : (forall x, In x l -> exists y, g x = Some y) -> exists ys, oseq (map g l) = Some ys /\ Forall2 (fun x y => g x = Some y) l ys.
Proof.
  induction l as [|x l IH]; intros H; cbn; [exists []; auto|]. destruct (H x (or_introl eq_refl)) as (y & Hy).
  destruct (IH (fun z Hz => H z (or_intror Hz))) as (ys & E & F). rewrite Hy, E. exists (y :: ys). auto.
Qed.

Section Accepted.
  Variable S : schema.
  Variable borrow : bool.
  Variable scalar_borrows : name -> option bool.
  Variable items : list sitem.
  Variable cod : codec.
  Variable as_f64 : Z -> N.
  Variable accepts : name -> value -> Prop.
  Variable one_of : bool.
  Variable scalar_ser : name -> json -> Prop.
  Hypothesis HI : inputs_resolved S.
  Hypothesis HB : schema_items S borrow scalar_borrows = Built items.
  Hypothesis HF : forall d, In (DInput d) (s_types S) -> NoDup (map iv_name (io_fields d)).
  Hypothesis HO : one_of_nullable S.
  Hypothesis HS : forall n j, scalar_ser n j -> j <> JNull /\ accepts n (json_value as_f64 j).
  Notation jv := (json_value as_f64).
  Notation conforms := (conforms accepts true one_of S).

  (** the type is one for [t] *)
  Inductive shape : tref -> itype -> Prop :=
  | sh_base n r ty : base_type S borrow scalar_borrows n = Built ty -> shape (TBase n r) ty
  | sh_box n r ty : shape (TBase n r) ty -> shape (TBase n r) (IBox ty)
  | sh_list t r ty : shape t ty -> shape (TList t r) (IVec ty)
  | sh_opt t ty : shape t ty -> tref_required t = false -> shape t (IOpt ty).
  Lemma optional_shape t ty req : shape t ty -> req = tref_required t -> shape t (optional req ty).
  Proof. intros H ->. destruct (tref_required t) eqn:E; cbn; auto. constructor; auto. Qed.
  Lemma type_for_shape t : forall parent hd ty, type_for S borrow scalar_borrows t parent hd = Built ty ->
    shape t ty \/ (hd = Some true /\ tref_required t = true /\ exists ty', ty = IOpt ty' /\ shape t ty').
  Proof.
    assert (Hreq : forall t hd ty, shape t ty ->
      let req := match hd with None => tref_required t | Some h => negb h && tref_required t end in
      shape t (optional req ty) \/ (hd = Some true /\ tref_required t = true /\ exists ty', optional req ty = IOpt ty' /\ shape t ty')).
    { clear t. intros t [[]|] ty Hs req; subst req; cbn [negb andb].
      - destruct (tref_required t) eqn:Er; [right|left; constructor; auto]. eauto.
      - left. apply optional_shape; auto.
      - left. apply optional_shape; auto. }
    induction t as [n r|t IH r]; intros parent hd ty H; cbn [type_for] in H.
    - apply bbind_Built in H as (inner & Hb & H). apply bbind_Built in H as (bx & Hx & H). injection H as <-.
      apply (Hreq (TBase n r) hd). destruct bx; [apply sh_box|]; apply sh_base; auto.
    - apply bmap_Built in H as (x & H & ->). apply (Hreq (TList t r) hd). apply sh_list. destruct (IH _ _ _ H) as [|([=] & _)]; auto.
  Qed.

  Lemma base_cases n ty : base_type S borrow scalar_borrows n = Built ty ->
    match ty with
    | IBuiltin b _ => get_type S n = Some (DBuiltin b)
    | IScalar m _ => m = n /\ exists x, get_type S n = Some (DScalar x) /\ sc_name x = n
    | IEnum m => m = n /\ exists x, get_type S n = Some (DEnum x)
    | IInput m _ => m = n /\ exists d, get_type S n = Some (DInput d)
    | _ => False
    end.
  Proof.
    unfold base_type. destruct (get_type S n) as [[b0|sc|ob|ip|en|un|it]|] eqn:Eg; try discriminate; intros H.
    - injection H as <-. auto.
    - destruct (scalar_borrows (sc_name sc)); [|discriminate]. injection H as <-. split; auto. exists sc. split; auto. apply get_type_Some in Eg. apply Eg.
    - apply bmap_Built in H as (lt & _ & ->). eauto.
    - injection H as <-. eauto.
  Qed.
  Ltac shape_inv H := inversion H; subst; clear H; try match goal with K : base_type _ _ _ _ = Built _ |- _ => apply base_cases in K; try contradiction K end.

  Lemma required_not_null t v : tref_required t = true -> conforms t v -> v <> VNull.
  Proof.
    intros Hr Hc ->. inversion Hc; subst; try congruence.
    - destruct b; cbn in *; repeat match goal with H : _ \/ _ |- _ => destruct H | H : exists _, _ |- _ => destruct H end; discriminate.
    - match goal with H : enum_accepts _ _ _ |- _ => destruct H as (e & _ & [[=]|[_ [=]]]) end.
  Qed.
  Lemma conforms_base_weaken n r v : conforms (TBase n true) v -> conforms (TBase n r) v.
  Proof.
    intros H. inversion H; subst.
    - discriminate.
    - apply c_var.
    - eapply c_builtin; eauto.
    - eapply c_scalar; eauto.
    - eapply c_enum; eauto.
    - eapply c_object; eauto.
  Qed.
  Lemma conforms_list_weaken t r v : conforms (TList t true) v -> conforms (TList t r) v.
  Proof.
    intros H. inversion H; subst.
    - discriminate.
    - apply c_var.
    - apply c_list; auto.
    - apply c_promote; auto.
  Qed.
  Lemma conforms_require t v : conforms (require t) v -> conforms t v.
  Proof. destruct t; [apply conforms_base_weaken|apply conforms_list_weaken]. Qed.
  Lemma jv_not_var j x : jv j <> VVar x. Proof. destruct j; cbn; try discriminate. destruct (fits_i32 z); discriminate. Qed.
  Lemma jv_null j : jv j = VNull -> j = JNull. Proof. destruct j; cbn; try discriminate; auto. destruct (fits_i32 z); discriminate. Qed.

  (** what holds of a value of the type *)
  Definition good (ty : itype) (v : rval) : Prop :=
    exists j, ser cod v = Some j /\
      (forall t, shape t ty -> conforms t (jv j) /\ no_promotion t (jv j)) /\
      (forall t ty', ty = IOpt ty' -> shape t ty' -> v = RNone \/ conforms t (jv j)).
  Lemma good_plain ty v j : (forall ty', ty <> IOpt ty') -> (forall ty', ty <> IVec ty') -> (forall ty', ty <> IBox ty') -> ser cod v = Some j ->
    (forall n r, base_type S borrow scalar_borrows n = Built ty -> conforms (TBase n r) (jv j)) -> good ty v.
  Proof.
    intros H1 H2 H3 Hs H. exists j. split; auto. split; [|intros t ty' ->; destruct (H1 ty'); auto].
    intros t Hsh. inversion Hsh; subst; try (exfalso; congruence). split; [auto|exact I].
  Qed.
  Lemma field_good i parent hd ty v j : type_for S borrow scalar_borrows (iv_type i) parent hd = Built ty -> good ty v -> ser cod v = Some j ->
    (v = RNone /\ hd = Some true /\ tref_required (iv_type i) = true) \/ conforms (iv_type i) (jv j).
  Proof.
    intros Ht (j' & Hj & G1 & G2) Hs. assert (j' = j) by congruence. subst j'.
    destruct (type_for_shape _ _ _ _ Ht) as [Hsh|(-> & Hr & ty' & -> & Hsh)].
    - right. apply G1; auto.
    - destruct (G2 _ ty' eq_refl Hsh) as [->|]; auto.
  Qed.
  Lemma item_of_name x d n : In (SInput x) items -> id_name x = n -> get_type S n = Some (DInput d) -> build_input S borrow scalar_borrows d = Built x.
  Proof.
    intros Hx <- Hg. apply (item_input _ _ _ _ HB) in Hx as (d' & Hd' & Hx). pose proof Hx as Hx'. apply build_input_inv in Hx' as (E & _).
    pose proof (type_of_item S d' HI Hd'). congruence.
  Qed.
  Lemma one_of_marked d : marked_one_of one_of d -> has_directive (tx "oneOf") (io_dirs d) = true.
  Proof. intros (_ & x & Hx & E). unfold has_directive. apply existsb_exists. exists x. split; auto. apply teqb_eq. auto. Qed.

  Lemma typed_good ty v : typed S items scalar_ser true ty v -> good ty v.
  Proof.
    induction 1 as [lt b|lt z Hz|lt bits Hf|lt s|lt s|n lt j Hj|n x e Hx En He|n Hst|t v H IH|t|t v H IH|t vs H IH|n lt x fs Hx En Ho Hk H IH Hst|n lt x f v Hx En Ho Hf H IH].
    - eapply good_plain; try (intros; discriminate); [reflexivity|]. intros n r Hb. apply base_cases in Hb. eapply c_builtin; eauto. cbn. eauto.
    - eapply good_plain; try (intros; discriminate); [reflexivity|]. intros n r Hb. apply base_cases in Hb. cbn.
      assert (Hfit : fits_i32 z = true) by (unfold fits_i32; apply andb_true_iff; split; apply Z.leb_le; lia). rewrite Hfit. eapply c_builtin; eauto. cbn. eauto.
    - eapply good_plain; try (intros; discriminate); [cbn; rewrite Hf by auto; reflexivity|]. intros n r Hb. apply base_cases in Hb. eapply c_builtin; eauto. cbn. eauto.
    - eapply good_plain; try (intros; discriminate); [reflexivity|]. intros n r Hb. apply base_cases in Hb. eapply c_builtin; eauto. cbn. eauto.
    - eapply good_plain; try (intros; discriminate); [reflexivity|]. intros n r Hb. apply base_cases in Hb. eapply c_builtin; eauto. cbn. eauto.
    - eapply good_plain; try (intros; discriminate); [reflexivity|]. intros m r Hb. apply base_cases in Hb as (-> & x & Hg & En).
      destruct (HS _ _ Hj) as [Hn Ha]. eapply c_scalar; eauto; [intros E; apply Hn; apply jv_null; auto|apply jv_not_var|rewrite En; auto].
    - eapply good_plain; try (intros; discriminate); [reflexivity|]. intros m r Hb. apply base_cases in Hb as (E & y & Hg). subst m.
      apply (item_enum _ _ _ _ HB) in Hx. assert (y = x).
      { apply get_type_Some in Hg as [Hy Ey]. assert (DEnum y = DEnum x) by (apply (NoDup_key_inj td_name (s_types S)); auto; [apply ir_names; auto|cbn in *; congruence]). congruence. }
      subst y. eapply c_enum; eauto. exists e. cbn. auto.
    - discriminate.
    - destruct IH as (j & Hj & G1 & _). exists j. split; auto. split; [|intros t' ty' [=]]. intros t' Hsh. shape_inv Hsh. auto.
    - exists JNull. split; auto. split; [|auto]. intros t' Hsh. shape_inv Hsh. split; [apply c_null; auto|destruct t'; exact I].
    - destruct IH as (j & Hj & G1 & _). exists j. split; auto. split.
      + intros t' Hsh. shape_inv Hsh. auto.
      + intros t' ty' [= <-] Hsh. right. apply G1; auto.
    - destruct (oseq_total (ser cod) vs) as (js & E & F); [intros v Hv; destruct (IH v Hv) as (j & Hj & _); eauto|].
      exists (JList js). cbn. rewrite E. split; auto. split; [|intros t' ty' [=]]. intros t' Hsh. shape_inv Hsh. split; [|exact I].
      apply c_list. intros w Hw. apply in_map_iff in Hw as (j & <- & Hj). apply In_nth_error in Hj as (k & Hk).
      destruct (proj1 (Forall2_nth _ _ _ F k) j Hk) as (v & Hv & Hs). destruct (IH v) as (j' & Hj' & G1 & _); [eapply nth_error_In; eauto|].
      assert (j' = j) by congruence. subst j'. auto.
    - assert (Hgood : forall k v, In (k, v) fs -> exists f, In f (id_fields x) /\ ifd_key f = k /\ good (ifd_type f) v).
      { intros k v Hkv. apply In_nth_error in Hkv as (idx & Hidx).
        assert (Hf : exists f, nth_error (id_fields x) idx = Some f /\ ifd_key f = k).
        { assert (E : nth_error (map ifd_key (id_fields x)) idx = Some k) by (rewrite <- Hk, nth_error_map, Hidx; reflexivity).
          rewrite nth_error_map in E. destruct (nth_error (id_fields x) idx) as [f|]; [|discriminate]. injection E as <-. eauto. }
        destruct Hf as (f & Hf & <-). exists f. split; [eapply nth_error_In; eauto|]. split; auto. eapply IH; eauto. }
      destruct (oseq_total (fun f => option_map (fun j => (fst f, j)) (ser cod (snd f))) fs) as (kvs & E & _).
      { intros [k v] Hkv. destruct (Hgood k v Hkv) as (f & _ & _ & j & Hj & _). cbn. rewrite Hj. cbn. eauto. }
      eapply good_plain; try (intros; discriminate); [cbn; rewrite E; reflexivity|]. intros m r Hb. apply base_cases in Hb as (Em & d & Hg). subst m.
      pose proof (item_of_name _ _ _ Hx En Hg) as Hbuild. apply build_input_inv in Hbuild as (Ed & Hone & _ & F).
      assert (Hd : In (DInput d) (s_types S)) by (apply get_type_Some in Hg; apply Hg).
      assert (Hkeys : map ifd_key (id_fields x) = map iv_name (io_fields d)) by (clear -F; induction F as [|i f l l' (E & _) F IH]; cbn; congruence).
      destruct (oseq_entries (ser cod) fs kvs E) as [K1 K2].
      assert (K1' : map fst (map (fun kv => (fst kv, jv (snd kv))) kvs) = map iv_name (io_fields d)) by (rewrite map_map; change (map fst kvs = map iv_name (io_fields d)); congruence).
      cbn [json_value]. eapply c_object; eauto.
      + rewrite K1'. auto.
      + intros k w Hin. apply (in_map fst) in Hin. rewrite K1' in Hin. apply in_map_iff in Hin as (i & Ei & Hi). cbn in Ei. eauto.
      + intros i w Hi Hin. apply in_map_iff in Hin as ([k j] & [= Ek <-] & Hin). cbn in *. destruct (K2 _ _ Hin) as (v & Hv & Hs).
        pose proof Hv as Hv'. apply In_nth_error in Hv' as (idx & Hidx).
        assert (Hf : exists f, nth_error (id_fields x) idx = Some f /\ ifd_key f = k).
        { assert (Ex : nth_error (map ifd_key (id_fields x)) idx = Some k) by (rewrite <- Hk, nth_error_map, Hidx; reflexivity).
          rewrite nth_error_map in Ex. destruct (nth_error (id_fields x) idx) as [f|]; [|discriminate]. injection Ex as <-. eauto. }
        destruct Hf as (f & Hf & Efk). destruct (proj1 (Forall2_nth _ _ _ F idx) f Hf) as (i' & Hi' & Ei' & Ht & _).
        assert (i' = i) by (apply (NoDup_key_inj iv_name (io_fields d)); auto; [eapply nth_error_In; eauto|congruence]). subst i'.
        rewrite Ho in Ht. subst k. assert (Hgf : good (ifd_type f) v) by (eapply IH; eauto; congruence).
        destruct (field_good i _ _ _ _ _ Ht Hgf Hs) as [(-> & Hh & Hr)|]; auto. exfalso.
        unfold has_default in Hh. apply (Hst eq_refl d i Hg Hi Hr); [destruct (iv_default i); congruence|]. congruence.
      + intros i Hi _ _. assert (Hin : In (iv_name i) (map fst (map (fun kv => (fst kv, jv (snd kv))) kvs))) by (rewrite K1'; apply in_map; auto).
        apply in_map_iff in Hin as ([k w] & <- & Hin). eauto.
      + intros Hm. apply one_of_marked in Hm. congruence.
    - destruct IH as (j & Hj & G1 & G2). assert (Hgf : good (ifd_type f) v) by (exists j; auto).
      eapply good_plain; try (intros; discriminate); [cbn; rewrite Hj; reflexivity|]. intros m r Hb. apply base_cases in Hb as (Em & d & Hg). subst m.
      pose proof (item_of_name _ _ _ Hx En Hg) as Hbuild. apply build_input_inv in Hbuild as (Ed & Hone & _ & F).
      assert (Hd : In (DInput d) (s_types S)) by (apply get_type_Some in Hg; apply Hg).
      apply In_nth_error in Hf as (idx & Hf). destruct (proj1 (Forall2_nth _ _ _ F idx) f Hf) as (i & Hi & Ei & Ht & _). rewrite Ho in Ht.
      assert (Hin : In i (io_fields d)) by (eapply nth_error_In; eauto).
      assert (Hc : conforms (require (iv_type i)) (jv j)).
      { destruct (type_for_shape _ _ _ _ Ht) as [Hsh|([=] & _)]. apply G1; auto. }
      cbn [json_value map fst snd]. eapply c_object; eauto.
      + constructor; [intros []|constructor].
      + intros k w [[= <- <-]|[]]. exists i. auto.
      + intros i' w Hi' [[= E <-]|[]]. assert (i' = i) by (apply (NoDup_key_inj iv_name (io_fields d)); auto; congruence). subst i'. apply conforms_require. auto.
      + intros i' Hi' Hr _. exfalso. rewrite (HO d i' Hd) in Hr; auto; congruence.
      + intros _. eexists _, _. split; [reflexivity|]. eapply required_not_null; [|exact Hc]. destruct (iv_type i); reflexivity.
  Qed.
End Accepted.

(** The serializer of a generated input type does not fail on a value (that is not one of the exceptions, see [typed]), and the
    JSON it writes, given as a variable, is accepted where the input type is expected. The custom scalars have to write JSON
    that the server accepts and that is not null. *)
Theorem serialized_inputs_accepted_partial : forall S borrow scalar_borrows items cod as_f64 hook one_of (scalar_ser : name -> json -> Prop),
  inputs_resolved S ->
  schema_items S borrow scalar_borrows = Built items ->
  (forall d, In (DInput d) (s_types S) -> NoDup (map iv_name (io_fields d))) ->
  one_of_nullable S ->
  (forall n j, scalar_ser n j -> j <> JNull /\ hook n (json_value as_f64 j) = None) ->
  forall n lt v r p, typed S items scalar_ser true (IInput n lt) v -> (exists d, get_type S n = Some (DInput d)) ->
  exists j, ser cod v = Some j /\ coerce_value hook true one_of S (TBase n r) (json_value as_f64 j) p = [].
Proof.
  intros S borrow sb items cod as_f64 hook one_of sser HI HB HF HO HS n lt v r p Hv (d & Hd).
  assert (Hx : exists x, In (SInput x) items /\ id_name x = n).
  { inversion Hv; subst; eauto. }
  destruct Hx as (x & Hx & En). pose proof (item_of_name S borrow sb items HI HB _ _ _ Hx En Hd) as Hb. apply build_input_inv in Hb as (_ & _ & Hl & _).
  assert (Hv' : typed S items sser true (IInput n (id_lifetime x)) v) by (inversion Hv; subst; [eapply ty_struct|eapply ty_variant]; eauto).
  destruct (typed_good S borrow sb items cod as_f64 (fun n x => hook n x = None) one_of sser HI HB HF HO HS _ _ Hv') as (j & Hj & G & _).
  exists j. split; auto. apply coerce_accepts_exactly_conforming. apply G. apply sh_base. unfold base_type. rewrite Hd, Hl. reflexivity.
Qed.
