(** C57, C58, and C56 for input types. *)
From Verif Require Import Base Ast Graph DocRulesSpec CoercionSpec Coercion CoercionProps DefRules DefRulesProps ResolveProofs Json Typegen TypegenDe TypegenSpec
                          TypegenProofs TypegenInput TypegenInputSpec TypegenInputProofs.
Local Open Scope string_scope.
Local Open Scope list_scope.

Lemma Forall2_weaken {A B} (P Q : A -> B -> Prop) l l' : (forall x y, P x y -> Q x y) -> Forall2 P l l' -> Forall2 Q l l'.
Proof. intros H F. induction F; constructor; auto. Qed.
Lemma Forall2_nth {A B} (P : A -> B -> Prop) l l' : Forall2 P l l' -> forall k,
  (forall y, nth_error l' k = Some y -> exists x, nth_error l k = Some x /\ P x y) /\
  (forall x, nth_error l k = Some x -> exists y, nth_error l' k = Some y /\ P x y).
Proof.
  intros F. induction F as [|x y l l' H F IH]; intros k.
  - destruct k; cbn; split; discriminate.
  - destruct k as [|k]; cbn; [|apply IH]. split; intros z [= <-]; eauto.
Qed.

(** * The items *)
Section Items.
  Variable S : schema.
  Variable borrow : bool.
  Variable scalar_borrows : name -> option bool.
  Variable items : list sitem.
  Hypothesis HB : schema_items S borrow scalar_borrows = Built items.

  Lemma bseq_In {A} (l : list (built A)) ys : bseq l = Built ys -> forall y, In y ys <-> In (Built y) l.
  Proof.
    revert ys. induction l as [|x l IH]; intros ys H y; cbn in H; [injection H as <-; cbn; tauto|].
    apply bbind_Built in H as (a & -> & H). apply bmap_Built in H as (l' & Hl & ->). cbn. rewrite (IH _ Hl). split; intros [E|E]; auto; left; congruence.
  Qed.
  Lemma item_input x : In (SInput x) items <-> exists d, In (DInput d) (s_types S) /\ build_input S borrow scalar_borrows d = Built x.
  Proof.
    rewrite (bseq_In _ _ HB), filter_map_In. split.
    - intros (t & Ht & E). destruct t; try discriminate E; injection E as E.
      exists d. split; auto. apply bmap_Built in E as (a & E & [= ->]). auto.
    - intros (d & Hd & E). exists (DInput d). rewrite E. auto.
  Qed.
  Lemma item_enum x : In (SEnum x) items <-> In (DEnum x) (s_types S).
  Proof.
    rewrite (bseq_In _ _ HB), filter_map_In. split.
    - intros (t & Ht & E). destruct t; try discriminate E; injection E as E; [|subst; auto].
      apply bmap_Built in E as (a & _ & [=]).
    - intros Hd. exists (DEnum x). auto.
  Qed.
End Items.

Section Types.
  Variable S : schema.
  Variable borrow : bool.
  Variable scalar_borrows : name -> option bool.
  (** The item of an input type has its name, its fields and their names, in order. *)
  Lemma build_input_inv d x : build_input S borrow scalar_borrows d = Built x ->
    id_name x = io_name d /\ id_one_of x = has_directive (tx "oneOf") (io_dirs d) /\
    object_contains_references S borrow scalar_borrows d = Built (id_lifetime x) /\
    Forall2 (fun i f => ifd_key f = iv_name i /\
       (if id_one_of x then type_for S borrow scalar_borrows (require (iv_type i)) (Some (io_name d)) None
        else type_for S borrow scalar_borrows (iv_type i) (Some (io_name d)) (Some (has_default i))) = Built (ifd_type f) /\
       exists vis, contains_references S borrow scalar_borrows (fuel S) (iv_type i) [] = Built (ifd_borrow f, vis)) (io_fields d) (id_fields x).
  Proof.
    intros H. unfold build_input in H. apply bbind_Built in H as (lt & Hl & H). apply bmap_Built in H as (fs & Hf & ->). cbn. repeat (split; auto).
    apply bseq_Forall2 in Hf. eapply Forall2_weaken; [|exact Hf]. intros i f Hif. unfold build_ifield in Hif.
    apply bbind_Built in Hif as (t & Ht & Hif). apply bmap_Built in Hif as ([r vis] & Hr & ->). cbn. eauto.
  Qed.
  Lemma type_of_item d : inputs_resolved S -> In (DInput d) (s_types S) -> get_type S (io_name d) = Some (DInput d).
  Proof.
    intros HI Hd. destruct (get_type S (io_name d)) as [u|] eqn:E.
    - apply get_type_Some in E as (J & E). f_equal. apply (NoDup_key_inj td_name (s_types S)); auto. apply ir_names; auto.
    - rewrite get_type_None in E. exfalso. exact (E _ Hd eq_refl).
  Qed.

  (** ** Types of fields *)
  Lemma type_for_inlined t parent hd ty b : type_for S borrow scalar_borrows t parent hd = Built ty -> inlined ty = Some b ->
    (exists r, t = TBase b r) /\ forall p, parent = Some p -> ~ leads_back S p t.
  Proof.
    destruct t as [n r|t r]; cbn [type_for]; intros H Hi.
    - apply bbind_Built in H as (inner & Hb & H). apply bbind_Built in H as (bx & Hx & [= <-]).
      assert (Hi' : inlined (if bx then IBox inner else inner) = Some b) by (destruct (match hd with None => _ | Some h => _ end); exact Hi).
      destruct bx; [discriminate|]. split.
      + exists r. f_equal. unfold base_type in Hb. destruct (get_type S n) as [[b0|sc|ob|ip|en|un|it]|]; try discriminate; try (injection Hb as <-; discriminate).
        * destruct (scalar_borrows (sc_name sc)); [|discriminate]. injection Hb as <-. discriminate.
        * apply bmap_Built in Hb as (lt & _ & ->). injection Hi' as ->. reflexivity.
      + intros p ->. apply bmap_Built in Hx as ([x vis] & Hx & E). cbn in E. subst x. intros HL. apply (non_list_exact _ _ _ _ _ _ Hx) in HL. discriminate.
    - apply bmap_Built in H as (x & _ & ->). destruct (match hd with None => _ | Some h => _ end); discriminate.
  Qed.
  Lemma base_not_boxed n ty : base_type S borrow scalar_borrows n = Built ty -> boxed ty = false.
  Proof.
    unfold base_type. destruct (get_type S n) as [[b0|sc|ob|ip|en|un|it]|]; try discriminate; intros H; try (injection H as <-; reflexivity).
    - destruct (scalar_borrows (sc_name sc)); [|discriminate]. injection H as <-. reflexivity.
    - apply bmap_Built in H as (lt & _ & ->). reflexivity.
  Qed.
  Lemma optional_boxed r t : boxed (optional r t) = boxed t. Proof. destruct r; reflexivity. Qed.
  Lemma type_for_not_boxed t : forall hd ty, type_for S borrow scalar_borrows t None hd = Built ty -> boxed ty = false.
  Proof.
    induction t as [n r|t IH r]; cbn [type_for]; intros hd ty H.
    - apply bbind_Built in H as (inner & Hb & H). injection H as <-. rewrite optional_boxed. eapply base_not_boxed; eauto.
    - apply bmap_Built in H as (x & H & ->). rewrite optional_boxed. cbn. eauto.
  Qed.
  Lemma type_for_boxed t p hd ty : type_for S borrow scalar_borrows t (Some p) hd = Built ty ->
    (boxed ty = true <-> (exists n r, t = TBase n r) /\ leads_back S p t).
  Proof.
    destruct t as [n r|t r]; cbn [type_for]; intros H.
    - apply bbind_Built in H as (inner & Hb & H). apply bbind_Built in H as (bx & Hx & H). injection H as <-. rewrite optional_boxed.
      apply bmap_Built in Hx as ([x vis] & Hx & E). cbn in E. subst x. pose proof (non_list_exact _ _ _ _ _ _ Hx) as HL.
      destruct bx; cbn.
      + split; auto. intros _. split; eauto. apply HL. reflexivity.
      + rewrite (base_not_boxed _ _ Hb). split; [discriminate|]. intros [_ Hl]. apply HL in Hl. discriminate.
    - apply bmap_Built in H as (x & H & ->). rewrite optional_boxed. cbn. rewrite (type_for_not_boxed _ _ _ H). split; [discriminate|]. intros [(n & r' & [=]) _].
  Qed.
  Lemma leads_back_require a t : leads_back S a (require t) <-> leads_back S a t.
  Proof. unfold leads_back. destruct t; cbn; (split; intros [(r' & E)|H]; [left|right; exact H|left|right; exact H]); try discriminate E; injection E as -> _; eauto. Qed.
  Lemma require_base t n : (exists r, require t = TBase n r) <-> exists r, t = TBase n r.
  Proof. destruct t; cbn; split; intros (r' & E); try discriminate E; injection E as -> _; eauto. Qed.

  (** ** Lifetimes *)
  Definition reaches_borrowed (n : name) : Prop := borrow = true /\ exists m, star (input_ref S) n m /\ bad_leaf S scalar_borrows m.
  Lemma object_reaches d r : inputs_resolved S -> In (DInput d) (s_types S) -> object_contains_references S borrow scalar_borrows d = Built r ->
    (r = true <-> reaches_borrowed (io_name d)).
  Proof.
    intros HI Hd H. pose proof (type_of_item d HI Hd) as Hg. rewrite (object_references_exact _ _ _ _ _ H). unfold reaches_borrowed. split.
    - intros (Hb & i & m & Hi & Hs & Hm). split; auto. exists m. split; auto. eapply star_step; [|exact Hs]. exists d, i. auto.
    - intros (Hb & m & Hs & Hm). split; auto. inversion Hs as [|? y ? (d' & i & Hg' & Hi & E)]; subst.
      + destruct Hm as (t & Ht & Hm). rewrite Hg in Ht. injection Ht as <-. destruct Hm.
      + rewrite Hg in Hg'. injection Hg' as <-. eauto 6.
  Qed.
  Hypothesis HI : inputs_resolved S.
  Hypothesis HN : borrow = false -> forall n, scalar_borrows n <> Some true.
  Lemma reaches_may n : reaches_borrowed n <-> may_borrow S borrow scalar_borrows n.
  Proof.
    unfold reaches_borrowed, may_borrow, bad_leaf. split.
    - intros (Hb & m & Hs & t & Ht & Hm). exists m, t. split; auto. split; auto. destruct t as [b| | | | | |]; cbn in *; auto. destruct b; try discriminate; auto.
    - intros (m & t & Hs & Ht & Hm). assert (Hb : borrow = true).
      { destruct borrow; auto. destruct t as [b| | | | | |]; cbn in Hm; try tauto; [destruct b; try tauto; discriminate|]. destruct (HN eq_refl _ Hm). }
      split; auto. exists m. split; auto. exists t. split; auto. destruct t as [b| | | | | |]; cbn in *; try tauto. destruct b; try tauto; reflexivity.
  Qed.
  Lemma leaf_reaches n : (forall d, get_type S n <> Some (DInput d)) -> reaches_borrowed n <-> borrow = true /\ bad_leaf S scalar_borrows n.
  Proof.
    intros Hn. split.
    - intros (Hb & m & Hs & Hm). split; auto. inversion Hs as [|? y ? (d & i & Hg & _)]; subst; auto. destruct (Hn _ Hg).
    - intros (Hb & Hm). split; auto. exists n. split; [constructor|auto].
  Qed.
  Lemma base_mentions n ty : base_type S borrow scalar_borrows n = Built ty -> (mentions ty = true <-> reaches_borrowed n).
  Proof.
    unfold base_type. destruct (get_type S n) as [[b0|sc|ob|ip|en|un|it]|] eqn:Eg; try discriminate; intros H.
    - injection H as <-. rewrite leaf_reaches by (intros; congruence). cbn. unfold builtin_borrows, bad_leaf. rewrite andb_true_iff.
      split; [intros [-> Hr]; split; eauto|intros [-> (t & Ht & Hr)]]. rewrite Eg in Ht. injection Ht as <-. auto.
    - destruct (scalar_borrows (sc_name sc)) as [b|] eqn:Es; [|discriminate]. injection H as <-. rewrite leaf_reaches by (intros; congruence). cbn. split.
      + intros ->. split; [destruct borrow; auto; destruct (HN eq_refl _ Es)|]. exists (DScalar sc). auto.
      + intros [_ (t & Ht & Hr)]. rewrite Eg in Ht. injection Ht as <-. congruence.
    - apply bmap_Built in H as (lt & Hl & ->). cbn. apply get_type_Some in Eg as [Hd <-]. apply object_reaches; auto.
    - injection H as <-. rewrite leaf_reaches by (intros; congruence). cbn. split; [discriminate|]. intros [_ (t & Ht & Hr)]. rewrite Eg in Ht. injection Ht as <-. destruct Hr.
  Qed.
  Lemma optional_mentions r t : mentions (optional r t) = mentions t. Proof. destruct r; reflexivity. Qed.
  Lemma optional_refs r t : input_refs (optional r t) = input_refs t. Proof. destruct r; reflexivity. Qed.
  Lemma type_for_mentions t : forall parent hd ty, type_for S borrow scalar_borrows t parent hd = Built ty -> (mentions ty = true <-> reaches_borrowed (tref_base t)).
  Proof.
    induction t as [n r|t IH r]; cbn [type_for]; intros parent hd ty H.
    - apply bbind_Built in H as (inner & Hb & H). apply bbind_Built in H as (bx & Hx & H). injection H as <-. rewrite optional_mentions.
      rewrite <- (base_mentions _ _ Hb). destruct bx; reflexivity.
    - apply bmap_Built in H as (x & H & ->). rewrite optional_mentions. cbn. eauto.
  Qed.
  Lemma type_for_refs t : forall parent hd ty n lt, type_for S borrow scalar_borrows t parent hd = Built ty -> In (n, lt) (input_refs ty) ->
    exists d, get_type S n = Some (DInput d) /\ object_contains_references S borrow scalar_borrows d = Built lt.
  Proof.
    induction t as [n0 r|t IH r]; cbn [type_for]; intros parent hd ty n lt H Hin.
    - apply bbind_Built in H as (inner & Hb & H). apply bbind_Built in H as (bx & Hx & H). injection H as <-. rewrite optional_refs in Hin.
      assert (Hin' : In (n, lt) (input_refs inner)) by (destruct bx; exact Hin). clear Hin.
      unfold base_type in Hb. destruct (get_type S n0) as [[b0|sc|ob|ip|en|un|it]|] eqn:Eg; try discriminate; try (injection Hb as <-; destruct Hin').
      + destruct (scalar_borrows (sc_name sc)); [|discriminate]. injection Hb as <-. destruct Hin'.
      + apply bmap_Built in Hb as (l & Hl & ->). destruct Hin' as [[= -> ->]|[]]. eauto.
    - apply bmap_Built in H as (x & H & ->). rewrite optional_refs in Hin. cbn in Hin. eauto.
  Qed.
  Lemma tref_base_require t : tref_base (require t) = tref_base t. Proof. destruct t; reflexivity. Qed.
End Types.

(** * Custom scalars *)
Lemma first_error_None {A} (f : A -> option alias_error) l : first_error f l = None <-> forall x, In x l -> f x = None.
Proof.
  induction l as [|x l IH]; cbn; [split; auto; intros _ x []|]. destruct (f x) eqn:E.
  - split; [discriminate|]. intros H. specialize (H x (or_introl eq_refl)). congruence.
  - rewrite IH. split; [intros H y [<-|Hy]; auto|intros H y Hy; apply H; auto].
Qed.
Lemma scalar_names_In S n : In n (scalar_names S) <-> exists x, In (DScalar x) (s_types S) /\ sc_name x = n.
Proof.
  unfold scalar_names. rewrite filter_map_In. split.
  - intros (t & Ht & E). destruct t; try discriminate. injection E as <-. eauto.
  - intros (x & Hx & <-). exists (DScalar x). auto.
Qed.
(** If the macro accepts the type aliases of the module, then each custom scalar has an alias, with its name in Pascal case,
    that has no type or const parameters and at most one lifetime, none if borrowing is off; and each alias is for a custom
    scalar. The answer to "does this scalar borrow?" is that of the last such alias. *)
Theorem custom_scalars_defined : forall pascal S borrow aliases m, custom_scalars pascal S borrow aliases = inl m ->
  (forall x, In (DScalar x) (s_types S) -> exists a, In a aliases /\ ta_name a = pascal (sc_name x) /\
     scalar_lookup pascal m (sc_name x) = Some (Nat.ltb 0 (ta_lifetimes a))) /\
  (forall a, In a aliases -> ta_types a = false /\ ta_consts a = false /\ ta_lifetimes a <= (if borrow then 1 else 0) /\
     exists x, In (DScalar x) (s_types S) /\ ta_name a = pascal (sc_name x)).
Proof.
  intros pascal S borrow aliases m H. unfold custom_scalars in H. destruct (first_error (alias_check pascal S borrow) aliases) eqn:E1; [discriminate|].
  destruct (first_error _ (scalar_names S)) eqn:E2 in H; [discriminate|]. injection H as <-.
  pose proof (proj1 (first_error_None _ _) E1) as E1'. pose proof (proj1 (first_error_None _ _) E2) as E2'. clear E1 E2. rename E1' into E1, E2' into E2. split.
  - intros x Hx. specialize (E2 (sc_name x)). cbn beta in E2. unfold scalar_lookup.
    destruct (assoc_last (pascal (sc_name x)) (map (fun a => (ta_name a, Nat.ltb 0 (ta_lifetimes a))) aliases)) eqn:E.
    + pose proof E as E'. apply assoc_last_In in E'. apply in_map_iff in E' as (a & [= Ea El] & Ha). exists a. rewrite El. auto.
    + exfalso. assert (In (sc_name x) (scalar_names S)) by (apply scalar_names_In; eauto). specialize (E2 H). discriminate.
  - intros a Ha. specialize (E1 a Ha). unfold alias_check in E1.
    destruct (ta_types a); [discriminate|]. destruct (ta_consts a); [discriminate|].
    destruct (negb borrow && Nat.ltb 0 (ta_lifetimes a)) eqn:E3; [discriminate|]. destruct (borrow && Nat.ltb 1 (ta_lifetimes a)) eqn:E4; [discriminate|].
    destruct (existsb _ _) eqn:E5; [|discriminate]. split; auto. split; auto. split.
    + destruct borrow; cbn [negb andb] in E3, E4; [apply Nat.ltb_ge in E4; auto|apply Nat.ltb_ge in E3; auto].
    + apply existsb_exists in E5 as (n & Hn & E5). apply scalar_names_In in Hn as (x & Hx & <-). apply teqb_eq in E5. eauto.
Qed.
(** so the conditions on custom scalars in the other theorems hold *)
Theorem custom_scalars_conditions : forall pascal S borrow aliases m, custom_scalars pascal S borrow aliases = inl m ->
  (forall x, In (DScalar x) (s_types S) -> scalar_lookup pascal m (sc_name x) <> None) /\
  (borrow = false -> forall n, scalar_lookup pascal m n <> Some true).
Proof.
  intros pascal S borrow aliases m H. split.
  - intros x Hx. destruct (proj1 (custom_scalars_defined _ _ _ _ _ H) x Hx) as (a & _ & _ & ->). discriminate.
  - intros -> n Hn. pose proof (proj2 (custom_scalars_defined _ _ _ _ _ H)) as Ha.
    unfold custom_scalars in H. destruct (first_error (alias_check pascal S false) aliases) eqn:E1; [discriminate|].
    destruct (first_error _ (scalar_names S)) eqn:E2 in H; [discriminate|]. injection H as <-.
    unfold scalar_lookup in Hn. apply assoc_last_In in Hn. apply in_map_iff in Hn as (a & [= Ea El] & Hin).
    destruct (Ha a Hin) as (_ & _ & Hl & _). apply Nat.ltb_lt in El. lia.
Qed.

(** * C57: size *)
(** The macro generates an item for every input type and enum, in order. *)
Theorem input_types_generated : forall S borrow scalar_borrows,
  inputs_resolved S ->
  (forall x, In (DScalar x) (s_types S) -> scalar_borrows (sc_name x) <> None) ->
  exists items, schema_items S borrow scalar_borrows = Built items /\
    (forall x, In (SEnum x) items <-> In (DEnum x) (s_types S)) /\
    (forall d, In (DInput d) (s_types S) -> exists x, In (SInput x) items /\ id_name x = io_name d /\ map ifd_key (id_fields x) = map iv_name (io_fields d)) /\
    (forall x, In (SInput x) items -> exists d, In (DInput d) (s_types S) /\ id_name x = io_name d /\ map ifd_key (id_fields x) = map iv_name (io_fields d)).
Proof.
  intros S borrow sb HI HA. destruct (schema_items_built S borrow sb HI HA) as (items & H). exists items. split; auto.
  assert (K : forall d x, build_input S borrow sb d = Built x -> map ifd_key (id_fields x) = map iv_name (io_fields d)).
  { intros d x Hx. apply build_input_inv in Hx as (_ & _ & _ & F). clear -F. induction F as [|i f l l' (E & _) F IH]; cbn; congruence. }
  split; [|split].
  - intros x. eapply item_enum; eauto.
  - intros d Hd. destruct (build_input_built S borrow sb HI HA d Hd) as (x & Hx). exists x. split; [eapply item_input; eauto|].
    split; [apply build_input_inv in Hx; apply Hx|eauto].
  - intros x Hx. apply (item_input _ _ _ _ H) in Hx as (d & Hd & Hx). exists d. split; auto. split; [apply build_input_inv in Hx; apply Hx|eauto].
Qed.
(** No generated type contains itself without indirection. *)
Theorem input_types_finite : forall S borrow scalar_borrows items,
  inputs_resolved S -> schema_items S borrow scalar_borrows = Built items ->
  forall a, ~ plus (holds_inside items) a a.
Proof.
  intros S borrow sb items HI HB.
  assert (Hedge : forall a b, holds_inside items a b -> direct_ref S a b /\ forall r, ~ leads_back S a (TBase b r)).
  { intros a b (x & f & Hx & <- & Hf & Hi). apply (item_input _ _ _ _ HB) in Hx as (d & Hd & Hx). pose proof (type_of_item S d HI Hd) as Hg.
    apply build_input_inv in Hx as (-> & _ & _ & F). apply In_nth_error in Hf as (k & Hk). destruct (proj1 (Forall2_nth _ _ _ F k) f Hk) as (i & Hik & _ & Ht & _).
    assert (Hin : In i (io_fields d)) by (eapply nth_error_In; eauto).
    assert (Hq : (exists r, iv_type i = TBase b r) /\ ~ leads_back S (io_name d) (iv_type i)).
    { destruct (id_one_of x); destruct (type_for_inlined _ _ _ _ _ _ _ _ Ht Hi) as (E & Hl).
      - rewrite require_base in E. split; auto. rewrite <- leads_back_require. auto.
      - split; auto. }
    destruct Hq as ((r & E) & Hl). split; [exists d, i, r; auto|]. intros r' Hr. apply Hl. rewrite E. destruct Hr as [(r'' & [= -> _])|Hr]; [left; eauto|right; exact Hr]. }
  intros a Hp. apply plus_last in Hp. destruct Hp as (m & Hs & Hm).
  inversion Hs as [|? b ? Hab Hbm]; subst.
  - apply Hedge in Hm as [_ Hl]. apply (Hl true). left. eauto.
  - apply Hedge in Hab as [_ Hl]. apply (Hl true). right. exists m. cbn. split; [|apply Hedge; auto].
    clear -Hbm Hedge. induction Hbm as [|x y z H Hs IH]; [constructor|]. eapply star_step; [|exact IH]. apply Hedge in H as [(d & i & r & Hg & Hi & E) _].
    exists d, i. rewrite E. auto.
Qed.
(** A field of the input type [a] is boxed exactly when it is not a list and its type leads back to [a]. *)
Theorem boxes_exact : forall S borrow scalar_borrows items,
  inputs_resolved S -> schema_items S borrow scalar_borrows = Built items ->
  forall x d k f i, In (SInput x) items -> In (DInput d) (s_types S) -> io_name d = id_name x ->
  nth_error (id_fields x) k = Some f -> nth_error (io_fields d) k = Some i ->
  (boxed (ifd_type f) = true <-> (exists n r, iv_type i = TBase n r) /\ leads_back S (id_name x) (iv_type i)).
Proof.
  intros S borrow sb items HI HB x d k f i Hx Hd En Hf Hi. apply (item_input _ _ _ _ HB) in Hx as (d' & Hd' & Hx).
  apply build_input_inv in Hx as (E & _ & _ & F). assert (d' = d).
  { pose proof (type_of_item S d HI Hd) as G1. pose proof (type_of_item S d' HI Hd') as G2. congruence. } subst d'.
  destruct (proj1 (Forall2_nth _ _ _ F k) f Hf) as (i' & Hi' & _ & Ht & _). assert (i' = i) by congruence. subst i'. rewrite E.
  destruct (id_one_of x); rewrite (type_for_boxed _ _ _ _ _ _ _ Ht).
  - rewrite leads_back_require. split; intros [(n & r & H) HL]; (split; [|exact HL]).
    + exists n. apply require_base. eauto.
    + exists n. apply require_base. eauto.
  - reflexivity.
Qed.

(** * C56: lifetimes of input types *)
(** A generated input type has a lifetime exactly when its values may hold borrowed data. *)
Theorem lifetimes_of_inputs_exact : forall S borrow scalar_borrows items,
  inputs_resolved S -> (borrow = false -> forall n, scalar_borrows n <> Some true) ->
  schema_items S borrow scalar_borrows = Built items ->
  forall x, In (SInput x) items -> (id_lifetime x = true <-> may_borrow S borrow scalar_borrows (id_name x)).
Proof.
  intros S borrow sb items HI HN HB x Hx. apply (item_input _ _ _ _ HB) in Hx as (d & Hd & Hx). apply build_input_inv in Hx as (-> & _ & Hl & _).
  rewrite (object_reaches _ _ _ d _ HI Hd Hl). apply reaches_may; auto.
Qed.
(** Every reference to an input type gives it a lifetime exactly when its definition has one; *)
(** The types of fields: Option for fields that may be left out, because their type is nullable or they have a default value, but
    not for the variants of oneOf types; lists are vectors, and names are the types they refer to. *)
Lemma type_for_shape S borrow sb t : forall parent hd ty, type_for S borrow sb t parent hd = Built ty ->
  exists r, not_null_type S t r /\ ty = (if match hd with None => tref_required t | Some h => negb h && tref_required t end then r else IOpt r).
Proof.
  induction t as [n q|t IH q]; intros parent hd ty H; cbn [type_for] in H.
  - apply bbind_Built in H as (inner & Hb & H). apply bbind_Built in H as (b & _ & [= <-]).
    assert (Hn : names_type S n inner).
    { unfold base_type in Hb. unfold names_type. destruct (get_type S n) as [[b'|x|x|x|x|x|x]|]; try discriminate Hb; try (injection Hb as <-; eauto).
      - destruct (sb (sc_name x)); [|discriminate Hb]. injection Hb as <-. eauto.
      - apply bmap_Built in Hb as (lt & _ & ->). eauto. }
    exists (if b then IBox inner else inner). split; [destruct b; [right; eauto|left; exact Hn]|reflexivity].
  - apply bmap_Built in H as (x & H & ->). destruct (IH _ _ _ H) as (r & Hr & ->). exists (IVec (if tref_required t then r else IOpt r)). split; [|reflexivity].
    exists (if tref_required t then r else IOpt r). split; [reflexivity|]. destruct (tref_required t); eauto.
Qed.
Lemma not_null_require S t r : not_null_type S (require t) r <-> not_null_type S t r.
Proof. destruct t; reflexivity. Qed.
Theorem input_field_types : forall S borrow scalar_borrows items,
  inputs_resolved S -> schema_items S borrow scalar_borrows = Built items ->
  forall x d k f i, In (SInput x) items -> In (DInput d) (s_types S) -> io_name d = id_name x ->
  nth_error (id_fields x) k = Some f -> nth_error (io_fields d) k = Some i ->
  (id_one_of x = true <-> has_directive (tx "oneOf") (io_dirs d) = true) /\
  exists r, not_null_type S (iv_type i) r /\
    (id_one_of x = false /\ (tref_required (iv_type i) = false \/ iv_default i <> None) -> ifd_type f = IOpt r) /\
    (id_one_of x = true \/ tref_required (iv_type i) = true /\ iv_default i = None -> ifd_type f = r).
Proof.
  intros S borrow sb items HI HB x d k f i Hx Hd En Hf Hi. apply (item_input _ _ _ _ HB) in Hx as (d' & Hd' & Hx).
  pose proof (type_of_item S d HI Hd) as Hg. pose proof (type_of_item S d' HI Hd') as Hg'.
  apply build_input_inv in Hx as (E & Eo & _ & F). assert (d' = d) by (rewrite <- E, <- En in Hg'; congruence). subst d'. split; [now rewrite Eo|].
  destruct (proj1 (Forall2_nth _ _ _ F k) f Hf) as (i' & Hi' & _ & Ht & _). assert (i' = i) by congruence. subst i'.
  destruct (id_one_of x); destruct (type_for_shape _ _ _ _ _ _ _ Ht) as (r & Hr & ->).
  - exists r. split; [now apply not_null_require|]. split; [intros ([=] & _)|]. intros _. destruct (iv_type i); reflexivity.
  - exists r. split; [exact Hr|]. unfold has_default. destruct (iv_default i), (tref_required (iv_type i)); cbn; split; intros H; try reflexivity; exfalso; intuition congruence.
Qed.
Theorem input_references_agree : forall S borrow scalar_borrows items,
  inputs_resolved S -> schema_items S borrow scalar_borrows = Built items ->
  forall x f n lt, In (SInput x) items -> In f (id_fields x) -> In (n, lt) (input_refs (ifd_type f)) ->
  exists y, In (SInput y) items /\ id_name y = n /\ id_lifetime y = lt.
Proof.
  intros S borrow sb items HI HB x f n lt Hx Hf Hr. apply (item_input _ _ _ _ HB) in Hx as (d & Hd & Hx).
  apply build_input_inv in Hx as (_ & _ & _ & F). apply In_nth_error in Hf as (k & Hk). destruct (proj1 (Forall2_nth _ _ _ F k) f Hk) as (i & _ & _ & Ht & _).
  assert (Hq : exists d', get_type S n = Some (DInput d') /\ object_contains_references S borrow sb d' = Built lt)
    by (destruct (id_one_of x); eapply type_for_refs; eauto).
  destruct Hq as (d' & Hg & Hl). apply get_type_Some in Hg as [Hd' En].
  assert (Hi : In (bmap SInput (build_input S borrow sb d'))
    (filter_map (fun t => match t with DEnum x => Some (Built (SEnum x)) | DInput d => Some (bmap SInput (build_input S borrow sb d)) | _ => None end) (s_types S))).
  { apply filter_map_In. exists (DInput d'). auto. }
  pose proof HB as HB'. unfold schema_items in HB'.
  assert (Hall : forall (l : list (built sitem)) ys, bseq l = Built ys -> forall z, In z l -> exists y, z = Built y).
  { clear. induction l as [|z l IH]; intros ys H w Hw; [destruct Hw|]. cbn in H. apply bbind_Built in H as (a & Ea & H). apply bmap_Built in H as (l' & Hl & ->).
    destruct Hw as [<-|Hw]; eauto. }
  destruct (Hall _ _ HB' _ Hi) as (y & Hy). apply bmap_Built in Hy as (z & Hz & ->).
  exists z. split; [eapply item_input; eauto|]. apply build_input_inv in Hz as (E & _ & Hl' & _). cbn in En. split; congruence.
Qed.
(** a type has a lifetime exactly when one of its fields uses it, and the fields that use it are the ones marked serde(borrow). *)
Theorem input_lifetimes_used : forall S borrow scalar_borrows items,
  inputs_resolved S -> (borrow = false -> forall n, scalar_borrows n <> Some true) ->
  schema_items S borrow scalar_borrows = Built items ->
  forall x, In (SInput x) items ->
  id_lifetime x = existsb (fun f => mentions (ifd_type f)) (id_fields x) /\
  forall f, In f (id_fields x) -> ifd_borrow f = mentions (ifd_type f).
Proof.
  intros S borrow sb items HI HN HB x Hx. apply (item_input _ _ _ _ HB) in Hx as (d & Hd & Hx). pose proof (type_of_item S d HI Hd) as Hg.
  apply build_input_inv in Hx as (E & _ & Hl & F).
  assert (Hm : forall i f, In i (io_fields d) -> (if id_one_of x then type_for S borrow sb (require (iv_type i)) (Some (io_name d)) None
        else type_for S borrow sb (iv_type i) (Some (io_name d)) (Some (has_default i))) = Built (ifd_type f) ->
        (mentions (ifd_type f) = true <-> reaches_borrowed S borrow sb (tref_base (iv_type i)))).
  { intros i f Hi Ht. destruct (id_one_of x); pose proof (type_for_mentions _ _ _ HI HN _ _ _ _ Ht) as K; [|exact K]. rewrite tref_base_require in K. exact K. }
  split.
  - apply eq_true_iff_eq. rewrite (object_references_exact _ _ _ _ _ Hl), existsb_exists. split.
    + intros (Hb & i & m & Hi & Hs & Hleaf). apply In_nth_error in Hi as (k & Hk). destruct (proj2 (Forall2_nth _ _ _ F k) i Hk) as (f & Hf & _ & Ht & _).
      exists f. split; [eapply nth_error_In; eauto|]. apply (Hm i f); auto; [eapply nth_error_In; eauto|]. split; eauto.
    + intros (f & Hf & Hmf). apply In_nth_error in Hf as (k & Hk). destruct (proj1 (Forall2_nth _ _ _ F k) f Hk) as (i & Hi & _ & Ht & _).
      assert (Hin : In i (io_fields d)) by (eapply nth_error_In; eauto). destruct (proj1 (Hm i f Hin Ht) Hmf) as (Hb & m & Hs & Hleaf). eauto 6.
  - intros f Hf. apply In_nth_error in Hf as (k & Hk). destruct (proj1 (Forall2_nth _ _ _ F k) f Hk) as (i & Hi & _ & Ht & vis & Hr).
    assert (Hin : In i (io_fields d)) by (eapply nth_error_In; eauto). apply eq_true_iff_eq. rewrite (Hm i f Hin Ht). apply (references_exact _ _ _ _ _ _ _ Hr).
Qed.
Print Assumptions input_field_types.
