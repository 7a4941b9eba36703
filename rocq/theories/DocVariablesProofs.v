From Verif Require Import Base Ast Graph Maps Doc DocSpec DocProofs DocRules DocRulesSpec FragmentsSpec DocRulesProofs DocTypingProofs DocVariables DocVariablesSpec CoercionTypes Coercion CoercionSpec CoercionProofs.

Lemma value_vars_In x v : In x (value_vars v) <-> var_in x v.
Proof.
  split.
  - induction v as [n| | | | | | |vs IH|es IH] using value_ind'; cbn [value_vars In]; try tauto.
    + intros [<-|[]]. constructor.
    + intros H. assert (E : exists v, In v vs /\ In x (value_vars v)).
      { clear IH. induction vs as [|v vs IHv]; [destruct H|]. apply in_app_iff in H as [H|H]; [exists v; split; [left|]; auto|].
        destruct (IHv H) as (w & Hw & Hx). exists w. split; [right|]; auto. }
      destruct E as (v & Hv & Hx). rewrite Forall_forall in IH. econstructor; eauto.
    + intros H. assert (E : exists k v, In (k, v) es /\ In x (value_vars v)).
      { clear IH. induction es as [|[k v] es IHv]; [destruct H|]. apply in_app_iff in H as [H|H]; [exists k, v; split; [left|]; auto|].
        destruct (IHv H) as (k' & w & Hw & Hx). exists k', w. split; [right|]; auto. }
      destruct E as (k & v & Hv & Hx). rewrite Forall_forall in IH. econstructor; eauto. apply (IH _ Hv). exact Hx.
  - induction 1 as [|vs v Hv Hx IH|es k v Hv Hx IH]; cbn [value_vars].
    + left; auto.
    + induction vs as [|w vs IHv]; [destruct Hv|]. apply in_app_iff. destruct Hv as [->|Hv]; [left; auto|right; auto].
    + induction es as [|[k' w] es IHv]; [destruct Hv|]. apply in_app_iff. destruct Hv as [[= -> ->]|Hv]; [left; auto|right; auto].
Qed.

Lemma root_eqb_eq a b : root_eqb a b = true <-> a = b.
Proof. unfold root_eqb. destruct (root_dec a b); split; congruence. Qed.

Lemma assoc_last_mapi {B} (l : list B) (key : B -> name) n : forall k j,
  assoc_last n (mapi_from (fun i f => (key f, i)) k l) = Some j <->
  exists i f, j = k + i /\ nth_error l i = Some f /\ key f = n /\ forall i' g, nth_error l i' = Some g -> key g = n -> i' <= i.
Proof.
  induction l as [|b l IH]; intros k j; cbn [mapi_from assoc_last].
  - split; [discriminate|]. intros (i & f & _ & H & _). destruct i; discriminate.
  - destruct (assoc_last n (mapi_from (fun i f => (key f, i)) (S k) l)) as [j'|] eqn:E.
    + assert (E' := proj1 (IH (S k) j') E). destruct E' as (i & f & -> & Hi & Hk & Hmax). split.
      * intros [= <-]. exists (S i), f. split; [lia|]. split; auto. split; auto. intros [|i'] g Hg Hkg; [lia|]. apply le_n_S. eapply Hmax; eauto.
      * intros (i2 & f2 & -> & Hi2 & Hk2 & Hmax2). f_equal.
        assert (S i <= i2) by (eapply Hmax2; eauto). destruct i2 as [|i2]; [lia|]. cbn in Hi2.
        assert (i2 <= i) by (eapply Hmax; eauto). lia.
    + destruct (teqb n (key b)) eqn:Et.
      * apply teqb_eq in Et. split.
        -- intros [= <-]. exists 0, b. split; [lia|]. split; auto. split; auto. intros [|i'] g Hg Hkg; [lia|]. exfalso.
           assert (Hx : exists j, assoc_last n (mapi_from (fun i f => (key f, i)) (S k) l) = Some j); [|destruct Hx; congruence].
           destruct (assoc_last n (mapi_from (fun i f => (key f, i)) (S k) l)) eqn:E2; eauto. exfalso.
           clear -Hg Hkg E2. cbn in Hg. revert k i' Hg E2. induction l as [|c l IHl]; intros k i' Hg E2; [destruct i'; discriminate|].
           cbn in E2. destruct (assoc_last n (mapi_from (fun i f => (key f, i)) (S (S k)) l)) eqn:E3; [discriminate|].
           destruct i' as [|i']; [|eapply IHl; eauto]. cbn in Hg. injection Hg as ->. rewrite Hkg, teqb_refl in E2. discriminate.
        -- intros (i & f & -> & Hi & Hk & Hmax). destruct i as [|i]; [f_equal; lia|]. exfalso.
           assert (Hx : assoc_last n (mapi_from (fun i f => (key f, i)) (S k) l) <> None); [|congruence].
           clear -Hi Hk. cbn in Hi. revert k i Hi. induction l as [|c l IHl]; intros k i Hi; [destruct i; discriminate|].
           cbn. destruct (assoc_last n (mapi_from (fun i f => (key f, i)) (S (S k)) l)) eqn:E3; [discriminate|].
           destruct i as [|i]; [|exfalso; eapply IHl; eauto]. cbn in Hi. injection Hi as ->. rewrite Hk, teqb_refl. discriminate.
      * apply teqb_neq in Et. split; [discriminate|]. intros (i & f & -> & Hi & Hk & Hmax). exfalso.
        destruct i as [|i]; [cbn in Hi; injection Hi as ->; auto|].
        assert (Hx : assoc_last n (mapi_from (fun i f => (key f, i)) (S k) l) <> None); [|congruence].
        clear -Hi Hk. cbn in Hi. revert k i Hi. induction l as [|c l IHl]; intros k i Hi; [destruct i; discriminate|].
        cbn. destruct (assoc_last n (mapi_from (fun i f => (key f, i)) (S (S k)) l)) eqn:E3; [discriminate|].
        destruct i as [|i]; [|exfalso; eapply IHl; eauto]. cbn in Hi. injection Hi as ->. rewrite Hk, teqb_refl. discriminate.
Qed.
Lemma cached_index_iff d n j : cached_index d n = Some j <-> denotes d n j.
Proof.
  unfold cached_index, mapi, denotes. rewrite (assoc_last_mapi (doc_frags d) fr_name n 0 j). split.
  - intros (i & f & -> & H1 & H2 & H3). exists f. cbn. auto.
  - intros (f & H1 & H2 & H3). exists j, f. auto.
Qed.

Section Rules.
  Variable S : schema.
  Variable d : document.
  Notation evs := (visit S d).

  Lemma references_In r j : In (r, j) (fragment_references d evs) <-> refers S d r (RFrag j).
  Proof.
    unfold fragment_references. rewrite in_flat_map. split.
    - intros (ev & Hev & H). destruct ev; try destruct H. destruct (cached_index d n) as [j'|] eqn:E; [|destruct H].
      destruct H as [[= <- <-]|[]]. apply visit_ESpread in Hev. apply cached_index_iff in E. econstructor; eauto.
    - inversion 1; subst. exists (ESpread r n ds t). split; [apply visit_ESpread; auto|].
      match goal with K : denotes _ _ _ |- _ => apply cached_index_iff in K; rewrite K end. left; auto.
  Qed.
  Lemma refers_frag r r' : refers S d r r' -> exists j f, r' = RFrag j /\ nth_error (doc_frags d) j = Some f.
  Proof. inversion 1 as [? t n ds j Hs (f & Hf & _)]; subst. eauto. Qed.
  Lemma references_of_edge r r' : edge (references_of (fragment_references d evs)) r r' <-> refers S d r r'.
  Proof.
    unfold edge, references_of. rewrite in_flat_map. split.
    - intros ([r0 j] & H & Hin). cbn [fst snd] in Hin. destruct (root_eqb r0 r) eqn:E; [|destruct Hin]. apply root_eqb_eq in E. subst.
      destruct Hin as [<-|[]]. apply references_In. auto.
    - intros H. destruct (refers_frag _ _ H) as (j & f & -> & _). exists (r, j). split; [apply references_In; auto|].
      cbn. replace (root_eqb r r) with true by (symmetry; apply root_eqb_eq; auto). left; auto.
  Qed.
  Lemma referencing_edge r r' : edge (referencing (fragment_references d evs)) r r' <-> refers S d r' r.
  Proof.
    unfold edge, referencing. destruct r as [i|j].
    - split; [intros []|]. intros H. apply refers_frag in H as (j & f & E & _). discriminate.
    - rewrite in_flat_map. split.
      + intros ([r0 j'] & H & Hin). cbn [fst snd] in Hin. destruct (Nat.eqb_spec j' j) as [->|]; [|destruct Hin].
        destruct Hin as [<-|[]]. apply references_In. auto.
      + intros H. exists (r', j). split; [apply references_In; auto|]. cbn. rewrite Nat.eqb_refl. left; auto.
  Qed.
  Lemma sel_at_root r t s : sel_at S d r t s -> In r (all_roots d).
  Proof.
    intros (sels & (t0 & s0 & Htop & _) & _). unfold all_roots, mapi. rewrite in_app_iff, !mapi_from_In.
    inversion Htop; subst; [left|right]; eauto.
  Qed.
  Lemma refers_roots r r' : refers S d r r' -> In r (all_roots d) /\ In r' (all_roots d).
  Proof.
    intros H. split.
    - inversion H; subst. eapply sel_at_root; eauto.
    - apply refers_frag in H as (j & f & -> & H). unfold all_roots, mapi. rewrite in_app_iff, !mapi_from_In. right. eauto.
  Qed.
  Lemma argument_at_root r a i : argument_at S d r a i -> In r (all_roots d).
  Proof.
    assert (Hn : forall k, (forall o, nth_error (doc_ops d) k = Some o -> In (ROp k) (all_roots d)) /\
                           (forall o, nth_error (doc_frags d) k = Some o -> In (RFrag k) (all_roots d))).
    { intros k. split; intros o H; unfold all_roots, mapi; rewrite in_app_iff, !mapi_from_In; [left|right]; eauto. }
    inversion 1 as [? ? ? ? ? ? ? ? ? ? Hs|? ? ? ? ? ? ? Hd]; subst; [eapply sel_at_root; eauto|].
    inversion Hd; subst; first [eapply sel_at_root; eassumption|eapply (proj1 (Hn _)); eassumption|eapply (proj2 (Hn _)); eassumption].
  Qed.

  Lemma plus_flip {A} (R Q : A -> A -> Prop) : (forall a b, R a b <-> Q b a) -> forall a b, plus R a b <-> plus Q b a.
  Proof.
    intros H. assert (G : forall (R Q : A -> A -> Prop), (forall a b, R a b <-> Q b a) -> forall a b, plus R a b -> plus Q b a).
    { clear. intros R Q H a b. induction 1 as [a b H1|a b c H1 H2 IH].
      - constructor. apply H; auto.
      - eapply plus_snoc; eauto. apply H; auto. }
    intros a b. split; apply G; auto. intros x y. symmetry. apply H.
  Qed.

  Lemma reachable_fragments i : exists l, dfs root_dec (references_of (fragment_references d evs)) (roots_fuel d) (ROp i) [] = Some l /\
    forall r, In r l <-> plus (refers S d) (ROp i) r.
  Proof.
    destruct (dfs_reach root_dec (references_of (fragment_references d evs)) (all_roots d)) with (fuel := roots_fuel d) (n := ROp i) as (l & Hl & Hr).
    - intros a b H. apply references_of_edge in H. apply (refers_roots _ _ H).
    - unfold roots_fuel. lia.
    - exists l. split; auto. intros r. rewrite Hr. split; apply plus_impl; intros a b; apply references_of_edge.
  Qed.
  Lemma operations_using_iff r : exists l, operations_using d evs r = Some l /\
    forall i, In i l <-> star (refers S d) (ROp i) r.
  Proof.
    destruct r as [k|k].
    - exists [k]. split; auto. intros i. split; [intros [->|[]]; constructor|].
      intros H. left. assert (G : forall a b, star (refers S d) a b -> b = ROp k -> a = ROp k).
      { clear. induction 1 as [|a b c H1 H2 IH]; auto. intros ->. specialize (IH eq_refl). subst. apply refers_frag in H1 as (j & f & E & _). discriminate. }
      specialize (G _ _ H eq_refl). congruence.
    - cbn [operations_using].
      destruct (dfs_reach root_dec (referencing (fragment_references d evs)) (all_roots d)) with (fuel := roots_fuel d) (n := RFrag k) as (l & Hl & Hr).
      + intros a b H. apply referencing_edge in H. apply (refers_roots _ _ H).
      + unfold roots_fuel. lia.
      + rewrite Hl. eexists. split; eauto. intros i. rewrite in_flat_map.
        assert (Hx : In (ROp i) l <-> star (refers S d) (ROp i) (RFrag k)).
        { rewrite Hr. rewrite (plus_flip _ (refers S d) referencing_edge). split.
          - apply plus_star.
          - intros H. inversion H; subst. apply plus_inv_star. eauto. }
        split.
        * intros ([j|j] & H & Hin); [|destruct Hin]. destruct Hin as [<-|[]]. apply Hx; auto.
        * intros H. exists (ROp i). split; [apply Hx; auto|left; auto].
  Qed.

  Lemma used_names_In r x : In x (used_names evs r) <-> uses_at S d r x.
  Proof.
    unfold used_names, uses_at. rewrite in_flat_map. split.
    - intros (ev & Hev & H). destruct ev; try destruct H. destruct (root_eqb r0 r) eqn:E; [|destruct H]. apply root_eqb_eq in E. subst.
      apply visit_EVarArg in Hev. apply value_vars_In in H. eauto.
    - intros (a & i & Ha & H). exists (EVarArg r a i). split; [apply visit_EVarArg; auto|].
      replace (root_eqb r r) with true by (symmetry; apply root_eqb_eq; auto). apply value_vars_In; auto.
  Qed.

  Lemma sequence_spec {A} (l : list (option (list A))) : (forall x, In x l -> exists y, x = Some y) ->
    exists r, sequence l = Some r /\ forall a, In a r <-> exists y, In (Some y) l /\ In a y.
  Proof.
    induction l as [|x l IH]; intros H; cbn.
    - exists []. split; auto. intros a. split; [intros []|intros (y & [] & _)].
    - destruct (H x) as (y & ->); [left; auto|]. destruct IH as (r & -> & Hr); [intros z Hz; apply H; right; auto|].
      exists (y ++ r). split; auto. intros a. rewrite in_app_iff, Hr. split.
      + intros [Ha|(z & Hz & Ha)]; [exists y; auto|exists z; auto].
      + intros (z & [[= <-]|Hz] & Ha); [auto|right; eauto].
  Qed.

  Lemma unused_iff : exists errs, unused_variable_errors d evs = Some errs /\
    forall i v, In (i, v) errs <->
      exists o, nth_error (doc_ops d) i = Some o /\ In v (op_vars o) /\ ~ operation_uses S d i (vd_name v).
  Proof.
    assert (Hone : forall i o, exists r, unused_in_operation d evs i o = Some r /\
       forall j v, In (j, v) r <-> j = i /\ In v (op_vars o) /\ ~ operation_uses S d i (vd_name v)).
    { intros i o. unfold unused_in_operation. destruct (op_vars o) as [|v0 vs] eqn:Ev.
      - exists []. split; auto. intros j v. split; [intros []|intros (_ & [] & _)].
      - destruct (reachable_fragments i) as (l & -> & Hl). eexists. split; [reflexivity|]. rewrite <- Ev. clear Ev v0 vs.
        assert (Hu : forall x, In x (flat_map (used_names evs) (l ++ [ROp i])) <-> operation_uses S d i x).
        { intros x. rewrite in_flat_map. unfold operation_uses. split.
          - intros (r & Hr & Hx). apply used_names_In in Hx. exists r. split; auto.
            apply in_app_iff in Hr as [Hr|[<-|[]]]; [apply plus_star, Hl; auto|constructor].
          - intros (r & Hr & Hx). exists r. split; [|apply used_names_In; auto]. apply in_app_iff.
            inversion Hr; subst; [right; left; auto|]. left. apply Hl. apply plus_inv_star. eauto. }
        intros j v. rewrite in_flat_map. split.
        + intros (v' & Hv & Hin). destruct (tmem (vd_name v') _) eqn:E; [destruct Hin|]. destruct Hin as [[= <- <-]|[]].
          split; auto. split; auto. intros Hx. apply Hu in Hx. apply tmem_In in Hx. congruence.
        + intros (-> & Hv & Hn). exists v. split; auto. destruct (tmem (vd_name v) _) eqn:E; [|left; auto].
          apply tmem_In in E. apply Hu in E. contradiction. }
    destruct (sequence_spec (mapi (unused_in_operation d evs) (doc_ops d))) as (r & Hr & Hin).
    { intros x Hx. unfold mapi in Hx. apply mapi_from_In in Hx as (i & o & _ & ->). destruct (Hone (0 + i) o) as (y & Hy & _). eauto. }
    exists r. split; auto. intros i v. rewrite Hin. split.
    - intros (y & Hy & Hv). unfold mapi in Hy. apply mapi_from_In in Hy as (k & o & Hk & Hy). cbn [Nat.add] in Hy.
      destruct (Hone k o) as (y' & Hy' & Hspec). rewrite Hy' in Hy. injection Hy as ->. apply Hspec in Hv as (-> & H1 & H2). eauto.
    - intros (o & Ho & Hv & Hn). destruct (Hone i o) as (y & Hy & Hspec). exists y. split; [|apply Hspec; auto].
      unfold mapi. apply mapi_from_In. exists i, o. auto.
  Qed.

  (** the shape shared by the two rules that go from a use to the operations *)
  Lemma per_root {U E} (usages : root -> list U) (report : nat -> operation -> U -> list E) :
    (forall r, usages r <> [] -> In r (all_roots d)) ->
    exists errs,
      sequence (map (fun r => match usages r with
                       | [] => Some []
                       | us => match operations_using d evs r with
                               | None => None
                               | Some ops => Some (flat_map (fun i => match nth_error (doc_ops d) i with
                                                                      | None => []
                                                                      | Some o => flat_map (report i o) us end) ops)
                               end
                       end) (all_roots d)) = Some errs /\
      forall e, In e errs <-> exists i o r u, nth_error (doc_ops d) i = Some o /\ star (refers S d) (ROp i) r /\ In u (usages r) /\ In e (report i o u).
  Proof.
    intros Hall.
    set (f := fun r => match usages r with
                       | [] => Some []
                       | us => match operations_using d evs r with
                               | None => None
                               | Some ops => Some (flat_map (fun i => match nth_error (doc_ops d) i with
                                                                      | None => []
                                                                      | Some o => flat_map (report i o) us end) ops)
                               end
                       end).
    assert (Hone : forall r, exists l, f r = Some l /\ forall e, In e l <->
       exists i o u, nth_error (doc_ops d) i = Some o /\ star (refers S d) (ROp i) r /\ In u (usages r) /\ In e (report i o u)).
    { intros r. unfold f. destruct (usages r) as [|u0 us].
      - exists []. split; auto. intros e. split; [intros []|intros (i & o & u & _ & _ & [] & _)].
      - destruct (operations_using_iff r) as (ops & -> & Hops). eexists. split; [reflexivity|]. intros e. rewrite in_flat_map. split.
        + intros (i & Hi & He). destruct (nth_error (doc_ops d) i) as [o|] eqn:Eb; [|destruct He]. apply in_flat_map in He as (u & Hu & He).
          exists i, o, u. rewrite <- Hops. auto.
        + intros (i & o & u & Ho & Hs & Hu & He). exists i. split; [apply Hops; auto|]. rewrite Ho. apply in_flat_map. eauto. }
    destruct (sequence_spec (map f (all_roots d))) as (errs & He & Hin).
    { intros x Hx. apply in_map_iff in Hx as (r & <- & _). destruct (Hone r) as (l & Hl & _). eauto. }
    exists errs. split; auto. intros e. rewrite Hin. split.
    - intros (y & Hy & Hey). apply in_map_iff in Hy as (r & Hr & _). destruct (Hone r) as (l & Hl & Hspec). rewrite Hl in Hr. injection Hr as ->.
      apply Hspec in Hey as (i & o & u & H). exists i, o, r, u. exact H.
    - intros (i & o & r & u & H). destruct (Hone r) as (l & Hl & Hspec). exists l. split; [|apply Hspec; eauto].
      rewrite <- Hl. apply in_map. apply Hall. intros Eu. rewrite Eu in H. destruct H as (_ & _ & [] & _).
  Qed.

  Lemma undefined_iff : exists errs, undefined_variable_errors d evs = Some errs /\
    forall i x, In (i, x) errs <->
      exists o, nth_error (doc_ops d) i = Some o /\ operation_uses S d i x /\ ~ In x (map vd_name (op_vars o)).
  Proof.
    destruct (per_root (used_names evs) (fun i o x => if forallb (fun v => negb (teqb (vd_name v) x)) (op_vars o) then [(i, x)] else [])) as (errs & He & Hin).
    { intros r Hr. destruct (used_names evs r) as [|x l] eqn:E; [contradiction|].
      assert (Hx : uses_at S d r x) by (apply used_names_In; rewrite E; left; auto). destruct Hx as (a & i & Ha & _). eapply argument_at_root; eauto. }
    exists errs. split; [exact He|]. intros i x. rewrite Hin.
    assert (Hb : forall o x, forallb (fun v => negb (teqb (vd_name v) x)) (op_vars o) = true <-> ~ In x (map vd_name (op_vars o))).
    { clear. intros o x. rewrite forallb_forall. split.
      - intros H Hx. apply in_map_iff in Hx as (v & E & Hv). specialize (H _ Hv). rewrite negb_true_iff in H. apply teqb_neq in H. auto.
      - intros H v Hv. rewrite negb_true_iff. apply teqb_neq. intros E. apply H. rewrite <- E. apply in_map; auto. }
    split.
    - intros (j & o & r & y & Ho & Hs & Hy & Hr). destruct (forallb _ _) eqn:E; [|destruct Hr]. destruct Hr as [[= -> ->]|[]].
      apply used_names_In in Hy. exists o. split; auto. split; [exists r; auto|]. apply Hb; auto.
    - intros (o & Ho & (r & Hs & Hu) & Hn). exists i, o, r, x. split; auto. split; auto. split; [apply used_names_In; auto|].
      apply Hb in Hn. rewrite Hn. left; auto.
  Qed.

  (** ** usages with locations *)
  Definition loc_default (l : location) : option value := match loc_ivd l with Some i => iv_default i | None => None end.
  Lemma value_usages_sound v : forall l x l', In (x, l') (value_usages S l v) ->
    located S (loc_type l) (loc_default l) v x (loc_type l') (loc_default l').
  Proof.
    induction v as [n| | | | | | |vs IH|es IH] using value_ind'; intros l x l'; cbn [value_usages In]; try tauto.
    - intros [[= <- <-]|[]]. constructor.
    - rewrite Forall_forall in IH. destruct (loc_type l) as [|inner r]; [intros []|]. intros H.
      assert (E : exists v, In v vs /\ In (x, l') (value_usages S (LocItem inner) v)).
      { clear IH. induction vs as [|v vs IHv]; [destruct H|]. apply in_app_iff in H as [H|H]; [exists v; split; [left|]; auto|].
        destruct (IHv H) as (w & Hw & Hx). exists w. split; [right|]; auto. }
      destruct E as (v & Hv & Hx). apply (IH _ Hv) in Hx. cbn in Hx. econstructor; eauto.
    - rewrite Forall_forall in IH. destruct (loc_ivd l) as [i|] eqn:El; [|intros []].
      destruct (get_type S (tref_base (iv_type i))) as [[]|] eqn:Eg; try (intros []; fail). intros H.
      assert (E : exists k v f, In (k, v) es /\ get_ivd (io_fields d0) k = Some f /\ In (x, l') (value_usages S (LocField f) v)).
      { clear IH. induction es as [|[k v] es IHv]; [destruct H|]. apply in_app_iff in H as [H|H].
        - destruct (get_ivd (io_fields d0) k) as [f|] eqn:Ef; [|destruct H]. exists k, v, f. split; [left|]; auto.
        - destruct (IHv H) as (k' & w & f & Hw & Hf & Hx). exists k', w, f. split; [right|]; auto. }
      destruct E as (k & v & f & Hv & Hf & Hx). apply (IH _ Hv) in Hx. cbn in Hx.
      assert (Et : iv_type i = loc_type l) by (destruct l; cbn in El; try discriminate; injection El as ->; auto).
      eapply loc_field; eauto. rewrite <- Et. exact Eg.
  Qed.
  Lemma located_var_in t df v x t' df' : located S t df v x t' df' -> var_in x v.
  Proof. induction 1; econstructor; eauto. Qed.
  Lemma value_usages_complete t df v x t' df' : located S t df v x t' df' ->
    ~ in_object_in_list x v -> forall l, loc_type l = t -> loc_default l = df -> (forall es, v = VObj es -> loc_ivd l <> None) ->
    exists l', In (x, l') (value_usages S l v) /\ loc_type l' = t' /\ loc_default l' = df'.
  Proof.
    induction 1 as [t df x|inner r df vs v x t' df' Hv Hl IH|t df io es k v f x t' df' Hg Hv Hf Hl IH]; intros Hn l Ht Hd Ho; cbn [value_usages].
    - exists l. split; [left|]; auto.
    - rewrite Ht. destruct (IH) with (l := LocItem inner) as (l' & Hin & H1 & H2); auto.
      + intros K. apply Hn. eapply oil_list; eauto.
      + intros es ->. exfalso. apply Hn. eapply oil_here; eauto. eapply located_var_in; eauto.
      + exists l'. split; auto. clear -Hv Hin. induction vs as [|w vs IHv]; [destruct Hv|]. apply in_app_iff. destruct Hv as [->|Hv]; auto.
    - destruct (loc_ivd l) as [i|] eqn:El; [|exfalso; eapply Ho; eauto].
      assert (Et : iv_type i = t) by (rewrite <- Ht; destruct l; cbn in El; try discriminate; injection El as ->; auto).
      rewrite Et, Hg. destruct (IH) with (l := LocField f) as (l' & Hin & H1 & H2); auto.
      + intros K. apply Hn. eapply oil_obj; eauto.
      + intros es' _. cbn. discriminate.
      + exists l'. split; auto. clear -Hv Hin Hf. induction es as [|[k' w] es IHv]; [destruct Hv|]. apply in_app_iff.
        destruct Hv as [[= -> ->]|Hv]; auto. left. rewrite Hf. auto.
  Qed.

  Lemma compatible_iff vt : forall lt, types_compatible vt lt = true <-> compatible vt lt.
  Proof.
    induction vt as [n r|vi IH r]; destruct lt as [m s|li s]; cbn [types_compatible].
    - rewrite andb_true_iff, teqb_eq. split.
      + intros [H ->]. constructor. intros ->. destruct r; auto.
      + inversion 1; subst. split; auto. destruct r, s; auto.
    - split; [discriminate|inversion 1].
    - split; [discriminate|inversion 1].
    - rewrite andb_true_iff, IH. split.
      + intros [H H']. constructor; auto. intros ->. destruct r; auto.
      + inversion 1; subst. split; auto. destruct r, s; auto.
  Qed.
  Lemma non_null_default_iff o : non_null_default o = true <-> has_non_null_value o.
  Proof.
    unfold has_non_null_value. destruct o as [v|]; cbn.
    - destruct v; split; try discriminate; try (intros; eexists; split; [reflexivity|discriminate]); auto.
      intros (w & [= <-] & H). contradiction.
    - split; [discriminate|]. intros (w & [=] & _).
  Qed.
  Definition input_variable (vd : vardef) : Prop := exists t, get_type S (tref_base (vd_type vd)) = Some t /\ td_is_input t = true.
  Lemma compatible_required vt lt : compatible vt lt -> tref_required lt = true -> tref_required vt = true.
  Proof. inversion 1; subst; cbn; auto. Qed.
  Lemma compatible_nullable vt lt : tref_required vt = true -> compatible vt (tref_nullable lt) -> compatible vt lt.
  Proof. destruct lt as [n r|i r]; cbn; inversion 2; subst; cbn in *; constructor; auto. Qed.
  Lemma usage_allowed_iff vd l : usage_allowed S vd l = true <->
    (input_variable vd -> usage_ok (vd_type vd) (vd_default vd) (loc_type l) (loc_default l)).
  Proof.
    unfold usage_allowed, input_variable, usage_ok.
    destruct (match get_type S (tref_base (vd_type vd)) with Some t => td_is_input t | None => false end) eqn:Ei; cbn [negb].
    2:{ split; auto. intros _ (t & E1 & E2). rewrite E1 in Ei. congruence. }
    assert (Hi : exists t, get_type S (tref_base (vd_type vd)) = Some t /\ td_is_input t = true)
      by (destruct (get_type S (tref_base (vd_type vd))); [eauto|discriminate]).
    assert (Hld : match loc_ivd l with Some i => non_null_default (iv_default i) | None => false end = non_null_default (loc_default l))
      by (unfold loc_default; destruct (loc_ivd l); auto).
    rewrite Hld.
    destruct (tref_required (loc_type l)) eqn:Er; destruct (tref_required (vd_type vd)) eqn:Ev; cbn [negb andb].
    - rewrite compatible_iff. split; [intros H _; left; auto|]. intros H. destruct (H Hi) as [H'|(_ & _ & H')]; auto. apply compatible_nullable; auto.
    - destruct (non_null_default (vd_default vd)) eqn:E1; [|destruct (non_null_default (loc_default l)) eqn:E2]; cbn [negb andb].
      + rewrite compatible_iff. split.
        * intros H _. right. split; auto. split; auto. left. apply non_null_default_iff; auto.
        * intros H. destruct (H Hi) as [H'|(_ & _ & H')]; auto. apply compatible_required in H'; congruence.
      + rewrite compatible_iff. split.
        * intros H _. right. split; auto. split; auto. right. apply non_null_default_iff; auto.
        * intros H. destruct (H Hi) as [H'|(_ & _ & H')]; auto. apply compatible_required in H'; congruence.
      + split; [discriminate|]. intros H. destruct (H Hi) as [H'|(_ & [H'|H'] & _)].
        * apply compatible_required in H'; congruence.
        * apply non_null_default_iff in H'. congruence.
        * apply non_null_default_iff in H'. congruence.
    - rewrite compatible_iff. split; [intros H _; left; auto|]. intros H. destruct (H Hi) as [H'|(H' & _)]; auto. discriminate.
    - rewrite compatible_iff. split; [intros H _; left; auto|]. intros H. destruct (H Hi) as [H'|(H' & _)]; auto. discriminate.
  Qed.

  Lemma usages_of_In r x l : In (x, l) (usages_of S evs r) <->
    exists a i, argument_at S d r a i /\ In (x, l) (value_usages S (LocArg i) (snd a)).
  Proof.
    unfold usages_of. rewrite in_flat_map. split.
    - intros (ev & Hev & H). destruct ev; try destruct H. destruct (root_eqb r0 r) eqn:E; [|destruct H]. apply root_eqb_eq in E. subst.
      apply visit_EVarArg in Hev. eauto.
    - intros (a & i & Ha & H). exists (EVarArg r a i). split; [apply visit_EVarArg; auto|].
      replace (root_eqb r r) with true by (symmetry; apply root_eqb_eq; auto). auto.
  Qed.
  Definition defined_as (o : operation) (x : name) (vd : vardef) : Prop := find (fun v => teqb (vd_name v) x) (op_vars o) = Some vd.
  Lemma disallowed_iff : exists errs, disallowed_usage_errors S d evs = Some errs /\
    forall i x vd l, In (i, (x, vd, l)) errs <->
      exists o r, nth_error (doc_ops d) i = Some o /\ star (refers S d) (ROp i) r /\
        (exists a iv, argument_at S d r a iv /\ In (x, l) (value_usages S (LocArg iv) (snd a))) /\
        defined_as o x vd /\ input_variable vd /\ ~ usage_ok (vd_type vd) (vd_default vd) (loc_type l) (loc_default l).
  Proof.
    destruct (per_root (usages_of S evs) (fun i o u => match find (fun v => teqb (vd_name v) (fst u)) (op_vars o) with
                                     | Some vd => if usage_allowed S vd (snd u) then [] else [(i, (fst u, vd, snd u))]
                                     | None => [] end)) as (errs & He & Hin).
    { intros r Hr. destruct (usages_of S evs r) as [|[x l0] l] eqn:E; [contradiction|].
      assert (Hx : In (x, l0) (usages_of S evs r)) by (rewrite E; left; auto). apply usages_of_In in Hx as (a & i & Ha & _). eapply argument_at_root; eauto. }
    exists errs. split; [exact He|]. intros i x vd l. rewrite Hin. split.
    - intros (j & o & r & [y l0] & Ho & Hs & Hu & Hr). cbn [fst snd] in Hr. destruct (find _ (op_vars o)) as [vd'|] eqn:Ef; [|destruct Hr].
      destruct (usage_allowed S vd' l0) eqn:Ea; [destruct Hr|]. destruct Hr as [[= -> -> -> ->]|[]]. apply usages_of_In in Hu.
      exists o, r. split; auto. split; auto. split; auto. split; auto.
      assert (Hni : ~ (input_variable vd -> usage_ok (vd_type vd) (vd_default vd) (loc_type l) (loc_default l)))
        by (rewrite <- usage_allowed_iff; congruence).
      assert (Hi : input_variable vd).
      { unfold input_variable. destruct (get_type S (tref_base (vd_type vd))) as [t|] eqn:Eg.
        - destruct (td_is_input t) eqn:Et; [eauto|]. exfalso. apply Hni. intros (t' & E1 & E2). congruence.
        - exfalso. apply Hni. intros (t' & E1 & E2). congruence. }
      split; auto.
    - intros (o & r & Ho & Hs & Hu & Hd & Hi & Hn). exists i, o, r, (x, l). split; auto. split; auto. split; [apply usages_of_In; auto|].
      cbn [fst snd]. unfold defined_as in Hd. rewrite Hd. destruct (usage_allowed S vd l) eqn:Ea; [|left; auto].
      rewrite usage_allowed_iff in Ea. exfalso. auto.
  Qed.

  (** ** safety *)
  Section Conf.
    Variable accepts : name -> value -> Prop.
    Variable str_enum one_of : bool.
    Notation conf := (conforms accepts str_enum one_of S).
    Lemma no_promotion_shape vt lt v : compatible vt lt -> no_promotion vt v -> no_promotion lt v.
    Proof. inversion 1; subst; cbn; auto. Qed.
    Lemma compatible_conforms vt lt : compatible vt lt -> forall v, conf vt v -> conf lt v.
    Proof.
      induction 1 as [n vr lr H|vt lt vr lr H Hc IH]; intros v Hv.
      - inversion Hv; subst; try (econstructor; eauto; fail). constructor. destruct lr; auto. cbn in *. rewrite H in *; auto.
      - inversion Hv; subst.
        + constructor. destruct lr; auto. cbn in *. rewrite H in *; auto.
        + constructor.
        + constructor. intros x Hx. match goal with K : forall x, In x vs -> _ |- _ => destruct (K x Hx) end. split; auto. eapply no_promotion_shape; eauto.
        + apply c_promote; auto.
    Qed.
    Lemma nullable_conforms lt v : v <> VNull -> conf (tref_nullable lt) v -> conf lt v.
    Proof.
      destruct lt as [n r|i r]; cbn; intros Hn Hv; inversion Hv; subst; try contradiction; try (econstructor; eauto; fail).
    Qed.
    Lemma usage_ok_safe vt vdef lt ldef v : usage_ok vt vdef lt ldef -> conf vt v ->
      conf lt v \/ (v = VNull /\ tref_required lt = true /\ (has_non_null_value vdef \/ has_non_null_value ldef)).
    Proof.
      intros [H|(H1 & H2 & H3)] Hv; [left; eapply compatible_conforms; eauto|].
      assert (Hdec : v = VNull \/ v <> VNull) by (destruct v; auto; right; discriminate). destruct Hdec as [->|Hn]; [right; auto|].
      left. apply nullable_conforms; auto. eapply compatible_conforms; eauto.
    Qed.

    (** replacing variables by values that conform where they stand *)
    Variable env : name -> value.
    Hypothesis Huniq : forall n io i, get_type S n = Some (DInput io) -> In i (io_fields io) -> get_ivd (io_fields io) (iv_name i) = Some i.
    Hypothesis Hscalar : forall n v, accepts n v -> accepts n (subst env v).
    Lemma subst_nonvar v : (forall x, v <> VVar x) -> v <> VNull -> (forall x, subst env v <> VVar x) /\ subst env v <> VNull.
    Proof. destruct v; cbn; intros H1 H2; split; try discriminate; auto; intros; try (exfalso; eapply H1; eauto; fail). Qed.
    Lemma subst_plain_list v : (forall x, v <> VVar x) -> (forall vs, v <> VList vs) -> forall vs, subst env v <> VList vs.
    Proof. destruct v; cbn; intros H1 H2 vs'; try discriminate; exfalso; [eapply H1|eapply H2]; eauto. Qed.
    Lemma subst_conforms v : forall t df,
      (forall x t' df', located S t df v x t' df' -> conf t' (env x) /\ no_promotion t' (env x)) ->
      (one_of = true -> forall x, var_in x v -> env x <> VNull) ->
      conf t v -> conf t (subst env v).
    Proof.
      induction v as [n| | | | | | |vs IH|es IH] using value_ind'; intros t df Hloc Hone Hv; cbn [subst]; auto.
      - apply (Hloc n t df). constructor.
      - rewrite Forall_forall in IH. inversion Hv; subst;
          try match goal with K : builtin_accepts ?b _ |- _ => destruct b; cbn in K; decompose [or ex] K; discriminate
                | K : enum_accepts _ _ _ |- _ => destruct K as (? & _ & [K|[_ K]]); discriminate
                | K : forall vs, VList _ <> VList vs |- _ => exfalso; eapply K; eauto end.
        + eapply c_scalar; eauto; [discriminate|discriminate|]. match goal with K : accepts _ _ |- _ => apply Hscalar in K; exact K end.
        + constructor. intros x Hx. apply in_map_iff in Hx as (w & <- & Hw).
          match goal with K : forall x, In x vs -> _ |- _ => destruct (K w Hw) as [Hc Hp] end. split.
          * eapply (IH w Hw inner None); auto.
            -- intros x t' df' Hl. apply (Hloc x t' df'). econstructor; eauto.
            -- intros Ho x Hx. apply Hone; auto. econstructor; eauto.
          * destruct w; try (destruct inner; cbn in *; auto; fail).
            apply (Hloc n inner None). econstructor; eauto. constructor.
      - rewrite Forall_forall in IH. assert (Hx := Hv). revert Hx Hloc. clear Hv.
        (* peel the list types of a promoted object *)
        assert (G : forall t, conf t (VObj es) -> 
                 (forall x t' df', located S t df (VObj es) x t' df' -> conf t' (env x) /\ no_promotion t' (env x)) ->
                 conf t (subst env (VObj es))).
        { induction t0 as [n r|inner IHt r]; intros Hv Hloc; cbn [subst].
          - inversion Hv; subst;
             try match goal with K : builtin_accepts ?b _ |- _ => destruct b; cbn in K; decompose [or ex] K; discriminate
                | K : enum_accepts _ _ _ |- _ => destruct K as (? & _ & [K|[_ K]]); discriminate end.
            + eapply c_scalar; eauto; [discriminate|discriminate|]. match goal with K : accepts _ _ |- _ => apply Hscalar in K; exact K end.
            + eapply c_object; eauto.
              * rewrite map_map. cbn. auto.
              * intros k v Hin. apply in_map_iff in Hin as ([k' v'] & E & Hin). injection E as <- <-. eauto.
              * intros i v Hi Hin. apply in_map_iff in Hin as ([k' v'] & E & Hin). cbn [fst snd] in E. injection E as -> <-.
                assert (Hvi : conf (iv_type i) v') by eauto.
                assert (Ef : get_ivd (io_fields d0) (iv_name i) = Some i) by (eapply Huniq; eauto).
                apply (IH _ Hin (iv_type i) (iv_default i)); auto.
                -- intros x t' df' Hl. apply (Hloc x t' df'). eapply loc_field; eauto.
                -- intros Ho x Hx. apply Hone; auto. econstructor; eauto.
              * intros i Hi Hr Hd. match goal with K : forall i, In i _ -> tref_required _ = true -> _ -> _ |- _ => destruct (K i Hi Hr Hd) as (vv & Hin) end. exists (subst env vv). apply in_map_iff. exists (iv_name i, vv). auto.
              * intros Hm. match goal with K : marked_one_of _ _ -> _ |- _ => destruct (K Hm) as (k & v & -> & Hn) end. exists k, (subst env v). split; auto.
                destruct v; cbn; try discriminate; auto. apply Hone; [apply Hm|]. econstructor; [left; reflexivity|constructor].
          - inversion Hv; subst. apply c_promote; [discriminate|discriminate|discriminate|]. apply IHt; auto.
            intros x t' df' Hl. apply (Hloc x t' df'). inversion Hl; subst. econstructor; eauto. }
        intros Hv Hloc. apply (G t); auto.
    Qed.
  End Conf.
End Rules.
