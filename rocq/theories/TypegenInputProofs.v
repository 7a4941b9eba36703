(** Proofs about generated input types. *)
From Verif Require Import Base Ast Graph DocRulesSpec Coercion Json Typegen TypegenDe TypegenSpec TypegenProofs TypegenInput TypegenInputSpec.
Local Open Scope string_scope.
Local Open Scope list_scope.

Section Search.
  Variable S : schema.
  Notation U := (map td_name (s_types S)).
  Lemma type_in_U n t : get_type S n = Some t -> In n U.
  Proof. intros H. apply get_type_Some in H as [Hin <-]. apply in_map. auto. Qed.

  (** ** [any_with] *)
  Section Any.
    Context {A : Type} (f : A -> list name -> built (bool * list name)) (good : A -> Prop) (mark : A -> list name -> Prop).
    (** the names that are added are not bad, and the names they refer to are there *)
    Variable edge : name -> name -> Prop.
    Variable bad : name -> Prop.
    Definition closed_new (vis vis' : list name) : Prop :=
      forall x, In x vis' -> In x vis \/ (~ bad x /\ forall y, edge x y -> In y vis').
    Lemma any_false l : (forall x v v', incl v v' -> mark x v -> mark x v') ->
      (forall x vis vis', In x l -> f x vis = Built (false, vis') -> incl vis vis' /\ good x /\ closed_new vis vis' /\ mark x vis') ->
      forall vis vis', any_with f l vis = Built (false, vis') ->
      incl vis vis' /\ closed_new vis vis' /\ forall x, In x l -> good x /\ mark x vis'.
    Proof.
      intros Hm H1. induction l as [|x l IH]; intros vis vis' H; cbn in H.
      - injection H as <-. split; [apply incl_refl|]. split; [intros x Hx; auto|intros x []].
      - destruct (f x vis) as [[[] v1]|] eqn:E; cbn in H; try discriminate.
        destruct (H1 x vis v1) as (I1 & G1 & C1 & M1); [left; auto|auto|].
        destruct (IH (fun y a b Hy => H1 y a b (or_intror Hy)) v1 vis' H) as (I2 & C2 & K2).
        split; [eapply incl_tran; eauto|]. split.
        + intros y Hy. destruct (C2 y Hy) as [Hy1|Hy1]; auto. destruct (C1 y Hy1) as [|[Hb He]]; auto.
        + intros y [<-|Hy]; auto. split; auto. eapply Hm; eauto.
    Qed.
    Lemma any_true l vis vis' : any_with f l vis = Built (true, vis') -> exists x v v', In x l /\ f x v = Built (true, v').
    Proof.
      revert vis. induction l as [|x l IH]; intros vis H; cbn in H; [discriminate|].
      destruct (f x vis) as [[[] v1]|] eqn:E; cbn in H; try discriminate.
      - exists x, vis, v1. split; [left|]; auto.
      - destruct (IH v1 H) as (y & a & b & Hy & Hf). exists y, a, b. split; [right|]; auto.
    Qed.
    (** progress *)
    Lemma any_built l n : (forall x vis, In x l -> unvisited text_dec U vis <= n -> exists r vis', f x vis = Built (r, vis') /\ incl vis vis') ->
      forall vis, unvisited text_dec U vis <= n -> exists r vis', any_with f l vis = Built (r, vis') /\ incl vis vis'.
    Proof.
      intros H. induction l as [|x l IH]; intros vis Hn; cbn; [exists false, vis; split; auto; apply incl_refl|].
      destruct (H x vis) as ([] & v1 & E & I1); [left; auto|auto| |]; rewrite E; cbn.
      - exists true, v1. auto.
      - destruct (IH (fun y v Hy => H y v (or_intror Hy)) v1) as (r & v2 & E2 & I2).
        + pose proof (unvisited_mono text_dec U vis v1 I1). lia.
        + exists r, v2. split; auto. eapply incl_tran; eauto.
    Qed.
  End Any.

  (** ** Borrowed data *)
  Variable borrow : bool.
  Variable scalar_borrows : name -> option bool.
  Definition bad_leaf (n : name) : Prop := exists t, get_type S n = Some t /\
    match t with DBuiltin b => is_reference b = true | DScalar x => scalar_borrows (sc_name x) = Some true | _ => False end.
  Notation contains_references := (contains_references S borrow scalar_borrows).

  Lemma references_false fuel : borrow = true -> forall t vis vis', contains_references fuel t vis = Built (false, vis') ->
    incl vis vis' /\ True /\ closed_new (input_ref S) bad_leaf vis vis' /\ In (tref_base t) vis'.
  Proof.
    intros Hb. induction fuel as [|fuel IH]; intros t vis vis' H; [discriminate|]. cbn in H.
    destruct (get_type S (tref_base t)) as [base|] eqn:Eb; [|discriminate].
    replace (negb borrow || tmem (tref_base t) vis) with (tmem (tref_base t) vis) in H by (rewrite Hb; reflexivity).
    destruct (tmem (tref_base t) vis) eqn:Em.
    { injection H as <-. apply tmem_In in Em. repeat split; auto; [apply incl_refl|intros x Hx; auto]. }
    assert (Hleaf : (forall d, base <> DInput d) -> ~ bad_leaf (tref_base t) -> vis' = tref_base t :: vis ->
      incl vis vis' /\ True /\ closed_new (input_ref S) bad_leaf vis vis' /\ In (tref_base t) vis').
    { intros Hn Hbad ->. split; [intros x Hx; right; auto|]. split; auto. split; [|left; auto].
      intros x [<-|Hx]; auto. right. split; auto. intros y (d & i & Hd & _). rewrite Eb in Hd. injection Hd as ->. destruct (Hn d); auto. }
    destruct base; try discriminate.
    - injection H as H1 <-. apply Hleaf; [discriminate| |auto]. intros (t' & Ht & Hr). rewrite Eb in Ht. injection Ht as <-. congruence.
    - destruct (scalar_borrows (sc_name _)) eqn:Es; [|discriminate]. injection H as -> <-. apply Hleaf; [discriminate| |auto].
      intros (t' & Ht & Hr). rewrite Eb in Ht. injection Ht as <-. congruence.
    - apply (any_false _ (fun _ => True) (fun i v => In (tref_base (iv_type i)) v) (input_ref S) bad_leaf) in H as (I & C & K); [|intros; auto|intros i v v' _ Hf; exact (IH _ _ _ Hf)].
      split; [intros x Hx; apply I; right; auto|]. split; auto. split; [|apply I; left; auto].
      intros x Hx. destruct (C x Hx) as [[<-|Hx']|]; auto. right. split.
      + intros (t' & Ht & Hr). rewrite Eb in Ht. injection Ht as <-. auto.
      + intros y (d' & i & Hd & Hi & <-). rewrite Eb in Hd. injection Hd as <-. exact (proj2 (K i Hi)).
    - injection H as <-. apply Hleaf; [discriminate| |auto]. intros (t' & Ht & Hr). rewrite Eb in Ht. injection Ht as <-. auto.
  Qed.
  Lemma references_true fuel : forall t vis vis', contains_references fuel t vis = Built (true, vis') ->
    borrow = true /\ exists m, star (input_ref S) (tref_base t) m /\ bad_leaf m.
  Proof.
    induction fuel as [|fuel IH]; intros t vis vis' H; [discriminate|]. cbn in H.
    destruct (get_type S (tref_base t)) as [base|] eqn:Eb; [|discriminate].
    destruct (negb borrow || tmem (tref_base t) vis) eqn:Em; [discriminate|]. apply orb_false_iff in Em as [Hb _]. apply negb_false_iff in Hb.
    split; auto. destruct base; try discriminate.
    - injection H as H <-. eexists. split; [constructor|]. eexists. split; [eauto|]. exact H.
    - destruct (scalar_borrows (sc_name _)) eqn:Es; [|discriminate]. injection H as -> <-. eexists. split; [constructor|]. eexists. split; [eauto|]. exact Es.
    - apply any_true in H as (i & v & v' & Hi & Hf). apply IH in Hf as (_ & m & Hs & Hm). exists m. split; auto.
      eapply star_step; eauto. eexists. eexists. eauto.
  Qed.
  Lemma closed_star vis x m : (forall x, In x vis -> ~ bad_leaf x /\ forall y, input_ref S x y -> In y vis) -> In x vis -> star (input_ref S) x m -> ~ bad_leaf m.
  Proof. intros HC Hx Hs. induction Hs as [x|x y z H Hs IH]; [apply HC; auto|]. apply IH. eapply HC; eauto. Qed.
  (** the answer for a field *)
  Lemma references_exact fuel t r vis : contains_references fuel t [] = Built (r, vis) ->
    (r = true <-> borrow = true /\ exists m, star (input_ref S) (tref_base t) m /\ bad_leaf m).
  Proof.
    intros H. destruct r.
    - split; auto. intros _. eapply references_true; eauto.
    - split; [discriminate|]. intros (Hb & m & Hs & Hm). exfalso. destruct (references_false _ Hb _ _ _ H) as (_ & _ & C & Hin).
      apply (closed_star vis (tref_base t) m); auto. intros x Hx. destruct (C x Hx) as [[]|]; auto.
  Qed.
  Lemma object_references_exact d r : object_contains_references S borrow scalar_borrows d = Built r ->
    (r = true <-> borrow = true /\ exists i m, In i (io_fields d) /\ star (input_ref S) (tref_base (iv_type i)) m /\ bad_leaf m).
  Proof.
    intros H. apply bmap_Built in H as ([r' vis] & H & ->). cbn. destruct r'.
    - split; auto. intros _. apply any_true in H as (i & v & v' & Hi & Hf). apply references_true in Hf as (Hb & m & Hs & Hm). eauto 6.
    - split; [discriminate|]. intros (Hb & i & m & Hi & Hs & Hm). exfalso.
      apply (any_false _ (fun _ => True) (fun i v => In (tref_base (iv_type i)) v) (input_ref S) bad_leaf) in H as (I & C & K);
        [|intros; auto|intros j v v' _ Hf; exact (references_false _ Hb _ _ _ Hf)].
      apply (closed_star vis (tref_base (iv_type i)) m); auto; [|apply K; auto]. intros x Hx. destruct (C x Hx) as [[]|]; auto.
  Qed.

  (** ** References that are not in lists *)
  Notation contains_non_list := (contains_non_list S).
  Definition hits (target : name) (t : tref) : bool := match t with TBase n _ => teqb n target | TList _ _ => false end.
  Lemma hits_spec target t : hits target t = true <-> exists r, t = TBase target r.
  Proof.
    destruct t as [n r|]; cbn; [|split; [discriminate|intros (r & [=])]]. rewrite teqb_eq. split; [intros ->; eauto|intros (r' & [= -> _]); auto].
  Qed.
  Definition input_edge (a b : name) : Prop := input_ref S a b /\ exists d, get_type S b = Some (DInput d).
  Definition marked (t : tref) (vis : list name) : Prop := (exists d, get_type S (tref_base t) = Some (DInput d)) -> In (tref_base t) vis.
  Lemma non_list_false fuel target : forall t vis vis', contains_non_list fuel target t vis = Built (false, vis') ->
    incl vis vis' /\ hits target t = false /\ closed_new input_edge (fun x => direct_ref S x target) vis vis' /\ marked t vis'.
  Proof.
    induction fuel as [|fuel IH]; intros t vis vis' H; [discriminate|]. cbn in H. fold (hits target t) in H.
    destruct (hits target t) eqn:Eh; [discriminate|].
    assert (Hleaf : (forall d, get_type S (tref_base t) <> Some (DInput d)) -> vis' = vis ->
      incl vis vis' /\ false = false /\ closed_new input_edge (fun x => direct_ref S x target) vis vis' /\ marked t vis').
    { intros Hn ->. split; [apply incl_refl|]. split; auto. split; [intros x Hx; auto|]. intros (d & Hd). destruct (Hn d); auto. }
    destruct (get_type S (tref_base t)) as [[]|] eqn:Eb; try discriminate; try (injection H as <-; apply Hleaf; auto; discriminate).
    destruct (tmem (tref_base t) vis) eqn:Em.
    { injection H as <-. apply tmem_In in Em. split; [apply incl_refl|]. split; auto. split; [intros x Hx; auto|]. intros _. auto. }
    apply (any_false _ (fun i => hits target (iv_type i) = false) (fun i v => marked (iv_type i) v) input_edge (fun x => direct_ref S x target)) in H as (I & C & K);
      [|intros x v v' Hi Hm Hd; apply Hi, Hm, Hd|intros i v v' _ Hf; exact (IH _ _ _ Hf)].
    split; [intros x Hx; apply I; right; auto|]. split; auto. split; [|intros _; apply I; left; auto].
    intros x Hx. destruct (C x Hx) as [[<-|Hx']|]; auto. right. split.
    - intros (d' & i & r & Hd & Hi & Ht). rewrite Eb in Hd. injection Hd as <-. destruct (K i Hi) as [Hh _].
      assert (hits target (iv_type i) = true) by (apply hits_spec; eauto). congruence.
    - intros y [(d' & i & Hd & Hi & <-) Hy]. rewrite Eb in Hd. injection Hd as <-. apply (K i Hi); auto.
  Qed.
  Lemma non_list_true fuel target : forall t vis vis', contains_non_list fuel target t vis = Built (true, vis') -> leads_back S target t.
  Proof.
    induction fuel as [|fuel IH]; intros t vis vis' H; [discriminate|]. cbn in H. fold (hits target t) in H.
    destruct (hits target t) eqn:Eh; [left; apply hits_spec; auto|].
    destruct (get_type S (tref_base t)) as [[]|] eqn:Eb; try discriminate. destruct (tmem (tref_base t) vis); [discriminate|].
    apply any_true in H as (i & v & v' & Hi & Hf). right. apply IH in Hf as [(r & Hr)|(b & Hs & Hd)].
    - exists (tref_base t). split; [constructor|]. eexists. exists i, r. eauto.
    - exists b. split; auto. eapply star_step; eauto. eexists. exists i. eauto.
  Qed.
  Lemma non_list_exact fuel target t r vis : contains_non_list fuel target t [] = Built (r, vis) -> (r = true <-> leads_back S target t).
  Proof.
    intros H. destruct r; [split; auto; intros _; eapply non_list_true; eauto|]. split; [discriminate|]. intros HL. exfalso.
    destruct (non_list_false _ _ _ _ _ H) as (_ & Hh & C & M). destruct HL as [HL|(b & Hs & Hd)].
    - apply hits_spec in HL. congruence.
    - assert (HC : forall x, In x vis -> ~ direct_ref S x target /\ forall y, input_edge x y -> In y vis) by (intros x Hx; destruct (C x Hx) as [[]|]; auto).
      assert (Hb : forall x, star (input_ref S) x b -> exists d, get_type S x = Some (DInput d)).
      { intros x Hx. inversion Hx as [|? y ? (d & i & Hg & _)]; subst; [|eauto]. destruct Hd as (d & i & r & Hg & _). eauto. }
      assert (Hall : forall x, star (input_ref S) x b -> In x vis -> False).
      { intros x Hx. induction Hx as [x|x y z Hxy Hyz IH]; intros Hin; [apply (HC x Hin); auto|]. apply IH; auto. apply (HC x Hin). split; auto. }
      apply (Hall (tref_base t) Hs). apply M. auto.
  Qed.

  (** ** Success *)
  Hypothesis HI : inputs_resolved S.
  Hypothesis HA : forall x, In (DScalar x) (s_types S) -> scalar_borrows (sc_name x) <> None.
  Definition input_typed (t : tref) : Prop := exists td, get_type S (tref_base t) = Some td /\ td_is_input td = true.
  Lemma field_typed n d i : get_type S n = Some (DInput d) -> In i (io_fields d) -> input_typed (iv_type i).
  Proof. intros H Hi. apply get_type_Some in H as [H _]. eapply ir_fields; eauto. Qed.
  Lemma references_built fuel : forall t vis, input_typed t -> unvisited text_dec U vis < fuel ->
    exists r vis', contains_references fuel t vis = Built (r, vis') /\ incl vis vis'.
  Proof.
    induction fuel as [|fuel IH]; intros t vis (td & Ht & Hin) Hf; [lia|]. cbn. rewrite Ht.
    destruct (negb borrow || tmem (tref_base t) vis) eqn:Em; [eexists; eexists; split; eauto; apply incl_refl|].
    apply orb_false_iff in Em as [_ Em]. apply tmem_false in Em.
    assert (Hinc : incl vis (tref_base t :: vis)) by (intros x Hx; right; auto).
    destruct td; try discriminate; eauto.
    - destruct (scalar_borrows (sc_name _)) eqn:Es; [eauto|]. exfalso. eapply HA; eauto. apply get_type_Some in Ht. apply Ht.
    - pose proof (unvisited_cons text_dec U vis (tref_base t) (type_in_U _ _ Ht) Em) as Hu.
      destruct (any_built (fun i => contains_references fuel (iv_type i)) (io_fields d) (unvisited text_dec U (tref_base t :: vis))) with (vis := tref_base t :: vis) as (r & v & E & I); auto.
      + intros i v Hi Hv. apply IH; [eapply field_typed; eauto|lia].
      + exists r, v. split; auto. eapply incl_tran; eauto.
  Qed.
  Lemma non_list_built fuel target : forall t vis, input_typed t -> unvisited text_dec U vis < fuel ->
    exists r vis', contains_non_list fuel target t vis = Built (r, vis') /\ incl vis vis'.
  Proof.
    induction fuel as [|fuel IH]; intros t vis (td & Ht & Hin) Hf; [lia|]. cbn. fold (hits target t). rewrite Ht.
    destruct (hits target t); [eexists; eexists; split; eauto; apply incl_refl|].
    destruct td; try discriminate; try (eexists; eexists; split; eauto; apply incl_refl).
    destruct (tmem (tref_base t) vis) eqn:Em; [eexists; eexists; split; eauto; apply incl_refl|]. apply tmem_false in Em.
    pose proof (unvisited_cons text_dec U vis (tref_base t) (type_in_U _ _ Ht) Em) as Hu.
    destruct (any_built (fun i => contains_non_list fuel target (iv_type i)) (io_fields d) (unvisited text_dec U (tref_base t :: vis))) with (vis := tref_base t :: vis) as (r & v & E & I); auto.
    - intros i v Hi Hv. apply IH; [eapply field_typed; eauto|lia].
    - exists r, v. split; auto. eapply incl_tran; eauto. intros x Hx; right; auto.
  Qed.
  Lemma enough vis : unvisited text_dec U vis < fuel S.
  Proof. unfold fuel. pose proof (unvisited_le text_dec U vis) as H. rewrite map_length in H. lia. Qed.
  Lemma object_references_built d : In (DInput d) (s_types S) -> exists r, object_contains_references S borrow scalar_borrows d = Built r.
  Proof.
    intros Hd. unfold object_contains_references.
    destruct (any_built (fun i => contains_references (fuel S) (iv_type i)) (io_fields d) (unvisited text_dec U [])) with (vis := @nil name) as (r & v & E & I); auto.
    - intros i v Hi Hv. apply references_built; [eapply ir_fields; eauto|apply enough].
    - rewrite E. cbn. eauto.
  Qed.
  Lemma type_for_built t : forall parent hd, input_typed t -> exists ty, type_for S borrow scalar_borrows t parent hd = Built ty.
  Proof.
    induction t as [n r|t IH r]; intros parent hd Ht; cbn [type_for].
    - assert (Hb : exists b, base_type S borrow scalar_borrows n = Built b).
      { destruct Ht as (td & Ht & Hin). cbn in Ht. unfold base_type. rewrite Ht. destruct td; try discriminate; eauto.
        - destruct (scalar_borrows (sc_name _)) eqn:Es; [eauto|]. exfalso. eapply HA; eauto. apply get_type_Some in Ht. apply Ht.
        - destruct (object_references_built d) as (b & ->); [apply get_type_Some in Ht; apply Ht|]. cbn. eauto. }
      destruct Hb as (b & ->). cbn [bbind]. destruct parent as [p|]; [|cbn; eauto].
      destruct (non_list_built (fuel S) p (TBase n r) [] Ht (enough [])) as (x & v & E & _). rewrite E. cbn. eauto.
    - destruct (IH None None Ht) as (ty & ->). cbn. eauto.
  Qed.
  Lemma require_typed t : input_typed t -> input_typed (require t).
  Proof. destruct t; auto. Qed.
  Lemma build_input_built d : In (DInput d) (s_types S) -> exists x, build_input S borrow scalar_borrows d = Built x.
  Proof.
    intros Hd. unfold build_input. destruct (object_references_built d Hd) as (lt & ->). cbn [bbind].
    assert (HF : forall l o, incl l (io_fields d) -> exists fs, bseq (map (build_ifield S borrow scalar_borrows d o) l) = Built fs).
    { induction l as [|i l IH]; intros o Hl; cbn; [eauto|].
      assert (Hi : input_typed (iv_type i)) by (eapply ir_fields; eauto; apply Hl; left; auto).
      assert (Hf : exists f, build_ifield S borrow scalar_borrows d o i = Built f).
      { unfold build_ifield. assert (Hty : exists ty, (if o then type_for S borrow scalar_borrows (require (iv_type i)) (Some (io_name d)) None
           else type_for S borrow scalar_borrows (iv_type i) (Some (io_name d)) (Some (has_default i))) = Built ty).
        { destruct o; apply type_for_built; auto. apply require_typed; auto. }
        destruct Hty as (ty & ->). cbn [bbind]. destruct (references_built (fuel S) (iv_type i) [] Hi (enough [])) as (r & v & -> & _). cbn. eauto. }
      destruct Hf as (f & ->). destruct (IH o) as (fs & ->); [intros x Hx; apply Hl; right; auto|]. cbn. eauto. }
    destruct (HF (io_fields d) (has_directive (tx "oneOf") (io_dirs d)) (incl_refl _)) as (fs & ->). cbn. eauto.
  Qed.
  Lemma schema_items_built : exists items, schema_items S borrow scalar_borrows = Built items.
  Proof.
    unfold schema_items. assert (H : forall l, incl l (s_types S) -> exists items,
      bseq (filter_map (fun t => match t with DEnum x => Some (Built (SEnum x)) | DInput d => Some (bmap SInput (build_input S borrow scalar_borrows d)) | _ => None end) l) = Built items).
    { induction l as [|t l IH]; intros Hl; [cbn; eauto|]. destruct IH as (items & E); [intros x Hx; apply Hl; right; auto|].
      destruct t; try (exists items; exact E).
      - cbn [filter_map bseq]. destruct (build_input_built d) as (x & Hx); [apply Hl; left; auto|]. rewrite Hx. cbn [bmap bbind]. rewrite E. cbn. eauto.
      - cbn [filter_map bseq bbind]. rewrite E. cbn. eauto. }
    apply H, incl_refl.
  Qed.
End Search.
