(** Lemmas about the complexity cost analyzer. *)
From Verif Require Import Base Ast Graph Maps Doc DocSpec DocRules DocRulesSpec DocRulesProofs DocVariablesSpec FragmentsSpec
  FragmentCyclesProofs Operation OperationSpec OperationProofs Complexity ComplexitySpec.

(** * The data structures *)
Lemma upd_length {A} (l : list A) : forall i f, length (upd l i f) = length l.
Proof. induction l as [|x l IH]; intros [|i] f; cbn; auto. Qed.
Lemma upd_nth {A} (l : list A) : forall i j f, nth_error (upd l i f) j =
  if Nat.eqb i j then option_map f (nth_error l j) else nth_error l j.
Proof. induction l as [|x l IH]; intros [|i] [|j] f; cbn; auto. destruct (i =? j); auto. Qed.

Lemma entry_assoc {A} (k : name) (v : A) f l k' :
  assoc k' (entry k v f l) = if teqb k k' then Some (f (match assoc k l with Some a => a | None => v end)) else assoc k' l.
Proof.
  induction l as [|(k1, a) l IH]; cbn [entry assoc].
  - rewrite (teqb_sym k'). destruct (teqb k k'); auto.
  - destruct (teqb_spec k1 k) as [->|Hk].
    + cbn [assoc]. rewrite (teqb_sym k'), teqb_refl. destruct (teqb_spec k k') as [->|Hn]; auto.
    + cbn [assoc]. rewrite IH. destruct (teqb_spec k' k1) as [->|H1].
      * destruct (teqb_spec k k1) as [->|H2]; congruence.
      * destruct (teqb_spec k k') as [->|H2]; auto. destruct (teqb_spec k' k1); congruence || auto.
Qed.
Lemma entry_keys {A} (k : name) (v : A) f l k' : In k' (map fst (entry k v f l)) <-> k' = k \/ In k' (map fst l).
Proof.
  induction l as [|(k1, a) l IH]; cbn [entry map fst In].
  - intuition congruence.
  - destruct (teqb_spec k1 k) as [->|Hk]; cbn [map fst In]; [|rewrite IH]; intuition congruence.
Qed.
Lemma entry_NoDup {A} (k : name) (v : A) f l : NoDup (map fst l) -> NoDup (map fst (entry k v f l)).
Proof.
  induction l as [|(k1, a) l IH]; cbn [entry map fst]; intros H.
  - repeat constructor. intros [].
  - inversion H; subst. destruct (teqb_spec k1 k) as [->|Hk]; cbn [map fst]; constructor; auto.
    rewrite entry_keys. intuition congruence.
Qed.

Lemma unique_from_spec {A} (key : A -> name) l : forall seen,
  NoDup (map key (unique_from key seen l)) /\ (forall x, In x (unique_from key seen l) -> In x l /\ ~ In (key x) seen) /\
  (forall x, In x l -> In (key x) seen \/ In (key x) (map key (unique_from key seen l))).
Proof.
  induction l as [|x l IH]; intros seen; cbn [unique_from].
  - split; [constructor|]. split; [intros ? []|intros ? []].
  - destruct (tmem (key x) seen) eqn:E.
    + apply tmem_In in E. destruct (IH seen) as (A1 & B1 & C1). split; auto. split.
      * intros y Hy. apply B1 in Hy as (? & ?). split; auto. right; auto.
      * intros y [->|Hy]; auto.
    + apply tmem_false in E. destruct (IH (key x :: seen)) as (A1 & B1 & C1). cbn [map]. split; [|split].
      * constructor; auto. intros H. apply in_map_iff in H as (y & Ey & Hy). apply B1 in Hy as (_ & Hy). apply Hy. left; auto.
      * intros y [->|Hy]; [split; auto; left; auto|]. apply B1 in Hy as (? & Hy). split; [right; auto|]. intros H1; apply Hy; right; auto.
      * intros y [->|Hy]; [right; left; auto|]. destruct (C1 _ Hy) as [[->|H1]|H1]; auto; right; [left; auto|right; auto].
Qed.
Lemma unique_names l : NoDup (unique_by (fun k => k) l) /\ forall k, In k (unique_by (fun k : name => k) l) <-> In k l.
Proof.
  destruct (unique_from_spec (fun k : name => k) l []) as (A1 & B1 & C1). rewrite map_id in A1, C1. split; auto.
  intros k. split; [apply B1|]. intros H. destruct (C1 _ H) as [[]|]; auto.
Qed.

Lemma osum_total {A} (f : A -> option N) (g : A -> N) l : (forall x, In x l -> f x = Some (g x)) -> osum (map f l) = Some (total (map g l)).
Proof.
  induction l as [|x l IH]; intros H; cbn; auto. rewrite H by (left; auto). rewrite IH by (intros; apply H; right; auto). reflexivity.
Qed.
Lemma omax_spec {A} (f : A -> option N) (g : A -> N) l : (forall x, In x l -> f x = Some (g x)) ->
  exists n, omax (map f l) = Some n /\ (forall x, In x l -> (g x <= n)%N) /\ ((l = [] /\ n = 0%N) \/ exists x, In x l /\ g x = n).
Proof.
  induction l as [|x l IH]; intros H; cbn.
  - exists 0%N. split; auto. split; auto. intros ? [].
  - destruct IH as (n & E & B & C). { intros; apply H; right; auto. }
    rewrite H by (left; auto). rewrite E. eexists; split; [reflexivity|]. split.
    + intros y [->|Hy]; [lia|]. specialize (B _ Hy). lia.
    + right. destruct (N.le_gt_cases n (g x)) as [L|L].
      * exists x. split; [left; auto|]. lia.
      * destruct C as [(_ & ->)|(y & Hy & <-)]; [lia|]. exists y. split; [right; auto|]. lia.
Qed.
Lemma fold_max l : forall a, (forall x, In x l -> (x <= fold_left N.max l a)%N) /\ (a <= fold_left N.max l a)%N /\
  (fold_left N.max l a = a \/ In (fold_left N.max l a) l).
Proof.
  induction l as [|x l IH]; intros a; cbn [fold_left].
  - split; [intros ? []|]. split; [lia|auto].
  - destruct (IH (N.max a x)) as (A & B & C). split; [|split].
    + intros y [->|Hy]; [lia|auto].
    + lia.
    + destruct C as [C|C]; [|right; right; auto]. rewrite C. destruct (N.max_spec a x) as [(_ & ->)|(_ & ->)]; auto. right; left; auto.
Qed.
Lemma list_max_is_max l : l <> [] -> is_max (fun c => In c l) (list_max l).
Proof.
  intros Hl. unfold list_max. destruct (fold_max l 0%N) as (A & B & C). split; auto.
  destruct C as [C|C]; auto. destruct l as [|x l]; [congruence|]. rewrite C in *. specialize (A x (or_introl eq_refl)).
  assert (x = 0%N) as -> by lia. left; auto.
Qed.
Lemma is_max_ext (P Q : N -> Prop) m : (forall k, P k <-> Q k) -> is_max P m -> is_max Q m.
Proof. intros H (A & B). split; [apply H; auto|]. intros k Hk. apply B, H; auto. Qed.
Lemma is_max_unique P m m' : is_max P m -> is_max P m' -> m = m'.
Proof. intros (A & B) (C & D). apply B in C. apply D in A. lia. Qed.
Lemma is_max_le (P Q : N -> Prop) m m' : (forall k, P k -> Q k) -> is_max P m -> is_max Q m' -> (m <= m')%N.
Proof. intros H (A & _) (_ & B). apply B, H, A. Qed.

Lemma total_le {A B} (key : A -> B) (v : A -> N) (g : B -> N) items : forall keys,
  NoDup (map key items) -> (forall i, In i items -> In (key i) keys /\ (v i <= g (key i))%N) ->
  (total (map v items) <= total (map g keys))%N.
Proof.
  induction items as [|i items IH]; intros keys Hnd H; [cbn; lia|].
  inversion Hnd; subst. destruct (H i (or_introl eq_refl)) as (Hi & Hv).
  apply in_split in Hi as (l1 & l2 & ->).
  assert (IH' : (total (map v items) <= total (map g (l1 ++ l2)))%N).
  { apply IH; auto. intros j Hj. destruct (H j (or_intror Hj)) as (Hjk & Hjv). split; auto.
    apply in_app_or in Hjk as [Hjk|[Hjk|Hjk]]; [apply in_or_app; auto| |apply in_or_app; auto].
    exfalso. apply H2. rewrite Hjk. apply in_map; auto. }
  assert (T : forall a b, total (a ++ b) = (total a + total b)%N).
  { intros a b. unfold total. induction a as [|x a IHa]; cbn [app fold_right]; [lia|]. rewrite IHa. lia. }
  assert (C : forall a l, total (a :: l) = (a + total l)%N) by reflexivity.
  rewrite map_app, T in IH'. rewrite map_app, T. cbn [map]. rewrite !C. lia.
Qed.

(** * Costs on sets of fields *)
Section Spec.
  Variable S : schema.
  Variable d : document.
  Variable M : Type.
  Variable multiplier_for : M -> selection -> N.
  Variable cost_of : fdef -> N.
  Variable multipliers_of : fdef -> selection -> M.
  Notation pc kept applies := (possible_cost S d kept M multiplier_for cost_of multipliers_of applies).
  Notation child kept := (child_node S d kept M multiplier_for multipliers_of).
  Notation cnt := (counted S cost_of).
  (** The costs are the same for the same sets of counted fields. *)
  Lemma pc_transfer kept kept' (applies applies' : name -> node -> Prop) (P : node -> Prop) :
    (forall x y, P x -> (child kept x y <-> child kept' x y)) -> (forall x y, P x -> child kept x y -> P y) ->
    (forall T x, P x -> (applies T x <-> applies' T x)) ->
    forall G n, pc kept applies G n -> forall G', (forall x, G x -> P x) -> (forall x, cnt x -> (G x <-> G' x)) -> pc kept' applies' G' n.
  Proof.
    intros Hc Hp Ha G n H. induction H as [G T items Hnd Hk Hm Hb IH]. intros G' HP HG.
    assert (E : forall k x, merges S cost_of applies G T k x <-> merges S cost_of applies' G' T k x).
    { intros k x. unfold merges. split.
      - intros (A & B & C & D). split; [apply HG; auto|]. split; auto. split; auto. apply Ha; auto.
      - intros (A & B & C & D). assert (Gx : G x) by (apply HG; auto). split; auto. split; auto. split; auto. apply Ha; auto. }
    assert (HP' : forall k x, merges S cost_of applies G T k x -> P x) by (intros k x (A & _); auto).
    econstructor; eauto.
    - intros k. rewrite Hk. split; intros (x & Hx); exists x; apply E; auto.
    - intros i Hi. destruct (Hm i Hi) as (A & B). split; eapply is_max_ext; eauto; cbn; intros c;
        split; intros (x & Hx & Hc'); exists x; (split; [apply E|]; auto).
    - intros i Hi. apply IH; auto.
      + intros y (x & Hx & Hy). eapply Hp; eauto.
      + intros y Hy. split; intros (x & Hx & Hxy); exists x; (split; [apply E; auto|]); apply Hc; eauto.
        eapply HP'. apply E; eauto.
  Qed.
End Spec.

(** * The visitor *)
Section Visitor.
  Variable S : schema.
  Variable d : document.
  Variable o : operation.
  Variable vals : list (name * value).
  Variable M : Type.
  Variable mdefault : M.
  Variable multiplier_for : M -> selection -> N.
  Variable cost_of : fdef -> N.
  Variable multipliers_of : fdef -> selection -> M.
  Definition keeps (ds : list directive) : Prop := selection_included o vals ds = true.
  Notation visit := (ovisit S d o vals).
  Notation visit_set := (ovisit_set S d o vals).
  Notation step := (complexity_step S M multiplier_for cost_of multipliers_of).
  Notation run := (fold_left step).
  Notation inset := (in_set S d keeps).
  Notation child := (child_node S d keeps M multiplier_for multipliers_of).
  Notation root := (root_node S d o keeps M mdefault multiplier_for).
  Notation cnt := (counted S cost_of).
  Notation same := (same_scope S d o keeps M mdefault multiplier_for multipliers_of).
  Notation opn := (op_node S d o keeps M mdefault multiplier_for multipliers_of).
  Notation enter := (enter_field S M multiplier_for cost_of multipliers_of).
  Hypothesis Consistent : consistent_multipliers S d o keeps M mdefault multiplier_for multipliers_of.
  Hypothesis Leaves : leaves_have_no_selections S d o keeps M mdefault multiplier_for cost_of multipliers_of.
  Set Default Proof Using "Type".

  (** ** events without effect *)
  Definition quiet_event (ev : oevent) : bool :=
    match ev with OEnter _ _ _ _ _ _ _ true | OLeave true => false | _ => true end.
  Definition quiet (evs : list oevent) : Prop := forall ev, In ev evs -> quiet_event ev = true.
  Lemma quiet_run evs st : quiet evs -> run evs st = st.
  Proof.
    revert st. induction evs as [|ev evs IH]; intros st H; cbn; auto.
    assert (E : step st ev = st).
    { specialize (H ev (or_introl eq_refl)). destruct st as [st|]; auto. destruct ev as [| |? ? ? ? ? ? ? []|[]| |]; auto; discriminate. }
    rewrite E. apply IH. intros ? ?; apply H; right; auto.
  Qed.
  Lemma quiet_app a b : quiet (a ++ b) <-> quiet a /\ quiet b.
  Proof.
    unfold quiet. split; [intros H; split; intros; apply H, in_or_app; auto|].
    intros (A & B) ev Hev. apply in_app_or in Hev as [|]; auto.
  Qed.
  Lemma quiet_cons ev l : quiet (ev :: l) <-> quiet_event ev = true /\ quiet l.
  Proof.
    unfold quiet. split; [intros H; split; intros; apply H; [left; auto|right; auto]|]. intros (A & B) ? [<-|]; auto.
  Qed.
  Lemma quiet_odirs ds : quiet (odirectives S ds).
  Proof. intros ev H. apply in_odirectives in H as (? & ? & ? & ? & -> & _). reflexivity. Qed.
  Lemma quiet_oargs args defs : quiet (oargs args defs).
  Proof. intros ev H. apply in_oargs in H as (? & ? & -> & _). reflexivity. Qed.
  Lemma quiet_nil : quiet []. Proof. intros ? []. Qed.
  Lemma quiet_flat {A} (f : A -> list oevent) l : (forall x, In x l -> quiet (f x)) -> quiet (flat_map f l).
  Proof. intros H ev Hev. apply in_flat_map in Hev as (x & Hx & Hev). eapply H; eauto. Qed.

  Lemma inset_mono act t ts sels act' t' ts' f : inset act t ts sels act' t' ts' f -> forall sels', incl sels sels' -> inset act t ts sels' act' t' ts' f.
  Proof. intros H. inversion H; subst; intros sels' Hi; [eapply is_field|eapply is_inline|eapply is_inline_on|eapply is_spread]; eauto. Qed.
  Lemma inset_one act t ts sels act' t' ts' f : inset act t ts sels act' t' ts' f -> exists s, In s sels /\ inset act t ts [s] act' t' ts' f.
  Proof.
    intros H. inversion H; subst; eexists; (split; [eassumption|]);
      [eapply is_field|eapply is_inline|eapply is_inline_on|eapply is_spread]; eauto; left; auto.
  Qed.
  Lemma inset_In act t ts sels s act' t' ts' f : In s sels -> inset act t ts [s] act' t' ts' f -> inset act t ts sels act' t' ts' f.
  Proof. intros Hi H. eapply inset_mono; eauto. intros x [<-|[]]; auto. Qed.

  Lemma inset_single act t ts s act' t' ts' f : inset act t ts [s] act' t' ts' f ->
    match s with
    | SField _ _ _ ds _ => keeps ds /\ act' = act /\ t' = t /\ ts' = ts /\ f = s
    | SInline None ds sub => keeps ds /\ inset act t ts sub act' t' ts' f
    | SInline (Some c) ds sub => keeps ds /\ exists t1, get_type S c = Some t1 /\ inset act t1 (t :: ts) sub act' t' ts' f
    | SSpread n ds => keeps ds /\ ~ In n act /\ exists fr t1, defines d n fr /\ get_type S (fr_cond fr) = Some t1 /\
                        inset (n :: act) t1 (t :: ts) (fr_sel fr) act' t' ts' f
    end.
  Proof.
    intros H. inversion H; subst; match goal with Hi : In _ [_] |- _ => destruct Hi as [->|[]] end; eauto 10.
  Qed.
  (** no field is included: nothing happens *)
  Definition no_fields (act : list name) (t : tdef) (ts : list tdef) (sels : list selection) : Prop :=
    forall act' t' ts' al n args ds sub fd, inset act t ts sels act' t' ts' (SField al n args ds sub) -> ~ has_field t' n fd.
  Lemma quiet_visit fuel : forall s act t ts inc, (inc = true -> no_fields act t ts [s]) -> quiet (visit fuel act t inc s).
  Proof.
    induction fuel as [|fuel IHf];
    (induction s as [al n args ds sub IHs|n ds|c ds sub IHs] using selection_ind'; intros act t ts inc H;
     [rewrite ovisit_field|rewrite ovisit_spread|rewrite ovisit_inline]).
    1,4: destruct (get_field (td_fields t) n) as [fd|] eqn:Ef; [|apply quiet_nil];
      assert (E : inc && selection_included o vals ds = false) by
        (destruct inc; auto; destruct (selection_included o vals ds) eqn:Ek; auto; exfalso;
         eapply (H eq_refl); [eapply is_field; [left; reflexivity|exact Ek]|exact Ef]);
      rewrite E; apply quiet_app; (split; [apply quiet_odirs|]);
      apply quiet_cons; (split; [reflexivity|]);
      apply quiet_app; (split; [apply quiet_oargs|]); apply quiet_app; (split; [|intros ev [<-|[]]; reflexivity]);
      destruct sub as [|s0 sub]; [apply quiet_nil|]; destruct (get_type S (tref_base (fd_type fd))) as [t'|]; [|apply quiet_nil];
      apply quiet_flat; intros s Hs; rewrite Forall_forall in IHs; apply (IHs s Hs act t' []); discriminate.
    2,4: apply quiet_app; (split; [apply quiet_odirs|]);
      (destruct c as [c|]; [destruct (get_type S c) as [t'|] eqn:Et; [|apply quiet_nil]|]);
      apply quiet_flat; intros s Hs; rewrite Forall_forall in IHs;
      [eapply (IHs s Hs act t' (t :: ts))|eapply (IHs s Hs act t ts)]; intros Hi; apply andb_true_iff in Hi as (Hi & Hk);
      intros act' t1 ts' al n args ds' sub' fd Hin; eapply (H Hi);
      [eapply is_inline_on; [left; reflexivity| | |]|eapply is_inline; [left; reflexivity| |]]; eauto using inset_In.
    - apply quiet_app; split; [apply quiet_odirs|]. destruct (tmem n act); [apply quiet_nil|].
      destruct (cached_fragment d n) as [f|]; [|apply quiet_nil]. destruct (get_type S (fr_cond f)) as [t'|]; [|apply quiet_nil].
      intros ev [<-|[]]. reflexivity.
    - apply quiet_app; split; [apply quiet_odirs|]. destruct (tmem n act) eqn:E; [apply quiet_nil|].
      destruct (cached_fragment d n) as [f|] eqn:Ef; [|apply quiet_nil]. destruct (get_type S (fr_cond f)) as [t'|] eqn:Et; [|apply quiet_nil].
      apply quiet_flat. intros s Hs. eapply (IHf s (n :: act) t' (t :: ts)). intros Hi; apply andb_true_iff in Hi as (Hi & Hk).
      intros act' t1 ts' al n' args ds' sub' fd Hin. eapply (H Hi). eapply is_spread; [left; reflexivity| | | | |]; eauto using inset_In.
      + apply tmem_false; auto.
      + apply cached_defines; auto.
  Qed.
  Lemma quiet_visit_set fuel act t ts inc sels : (inc = true -> no_fields act t ts sels) -> quiet (visit_set fuel act t inc sels).
  Proof.
    intros H. apply quiet_flat. intros s Hs. eapply (quiet_visit fuel s act t ts). intros Hi. specialize (H Hi).
    intros act' t' ts' al n args ds sub fd Hin. eapply H. eapply inset_In; eauto.
  Qed.

  (** ** the invariant: [H] lists, for each field visited so far, the scope around it and its scope *)
  Definition hist := list (nat * nat * node).
  Definition source (H : hist) (i : nat) (x : node) : Prop := (i = 0 /\ root x) \/ exists p y, In (p, i, y) H /\ child y x.
  Record Inv (A : arena M) (H : hist) : Prop := {
    inv_len : 0 < length A;
    inv_entry : forall i j tn k, (exists sc, nth_error A i = Some sc /\ find_scope M sc tn k = Some j) <->
                                 exists x, In (i, j, x) H /\ td_name (nd_type x) = tn /\ nd_key x = k;
    inv_lt : forall i j x, In (i, j, x) H -> i < j /\ j < length A /\ cnt x /\ get_type S (td_name (nd_type x)) = Some (nd_type x);
    inv_inj : forall i j x i' x', In (i, j, x) H -> In (i', j, x') H -> i = i' /\ td_name (nd_type x) = td_name (nd_type x') /\ nd_key x = nd_key x';
    inv_cost : forall i j x sc, In (i, j, x) H -> nth_error A j = Some sc ->
                 is_max (fun c => exists i' x', In (i', j, x') H /\ c = cost_of (nd_def x')) (cs_cost M sc);
    inv_mult : forall i j x sc, In (i, j, x) H -> nth_error A j = Some sc ->
                 cs_mult M sc = nd_mult x /\ cs_fm M sc = multipliers_of (nd_def x) (nd_field x);
    inv_root : forall sc, nth_error A 0 = Some sc -> cs_fm M sc = mdefault;
    inv_typed : forall i sc, nth_error A i = Some sc -> NoDup (map fst (cs_typed M sc)) /\
                 forall tn t inner, In (tn, (t, inner)) (cs_typed M sc) -> get_type S tn = Some t /\ inner <> [];
    inv_src : forall i j x, In (i, j, x) H -> source H i x }.

  Lemma source_mono H H' i x : incl H H' -> source H i x -> source H' i x.
  Proof. intros Hi [A|(p & y & A & B)]; [left; auto|right; eauto]. Qed.
  Lemma hist_op A H : Inv A H -> forall j i x, In (i, j, x) H -> opn x.
  Proof.
    intros I j. induction j as [j IH] using lt_wf_ind. intros i x Hx.
    destruct (inv_src _ _ I _ _ _ Hx) as [(-> & Hr)|(p & y & Hy & Hc)].
    - apply on_root; auto.
    - eapply on_child; eauto. eapply IH; eauto. apply (inv_lt _ _ I _ _ _ Hx).
  Qed.
  Lemma source_op A H i x : Inv A H -> source H i x -> opn x.
  Proof. intros I [(-> & Hr)|(p & y & Hy & Hc)]; [apply on_root; auto|eapply on_child; eauto; eapply hist_op; eauto]. Qed.
  Lemma source_same A H i x y : Inv A H -> source H i x -> source H i y ->
    td_name (nd_type x) = td_name (nd_type y) -> nd_key x = nd_key y ->
    (forall p x y, In (p, i, x) H -> In (p, i, y) H -> same x y) -> same x y.
  Proof.
    intros I Hx Hy Et Ek IH. destruct Hx as [(-> & Hx)|(p & x0 & Hx0 & Hx)], Hy as [(Ei & Hy)|(p' & y0 & Hy0 & Hy)].
    - apply ss_root; auto.
    - apply (inv_lt _ _ I) in Hy0. lia.
    - subst. apply (inv_lt _ _ I) in Hx0. lia.
    - destruct (inv_inj _ _ I _ _ _ _ _ Hx0 Hy0) as (<- & _). eapply ss_child; [eapply IH; [exact Hx0|exact Hy0]| | | |]; eauto.
  Qed.
  Lemma hist_same A H : Inv A H -> forall i p x y, In (p, i, x) H -> In (p, i, y) H -> same x y.
  Proof.
    intros I i. induction i as [i IH] using lt_wf_ind. intros p x y Hx Hy.
    destruct (inv_inj _ _ I _ _ _ _ _ Hx Hy) as (_ & Et & Ek).
    eapply source_same; eauto using inv_src. intros p' x' y' Hx' Hy'. eapply (IH p); eauto. apply (inv_lt _ _ I _ _ _ Hx).
  Qed.
  Lemma source_mult A H i x sc : Inv A H -> source H i x -> nth_error A i = Some sc -> nd_mult x = multiplier_for (cs_fm M sc) (nd_field x).
  Proof.
    intros I [(-> & t & Hr & Hs)|(p & y & Hy & t & Ht & Hs)] E.
    - rewrite (inv_root _ _ I _ E). apply Hs.
    - destruct (inv_mult _ _ I _ _ _ _ Hy E) as (_ & ->). apply Hs.
  Qed.

  Lemma base_composite_false fd : base_composite S fd = false <-> leaf_definition S fd.
  Proof.
    unfold base_composite, leaf_definition. destruct (get_type S (tref_base (fd_type fd))) as [t|]; split; intros H; auto.
    - intros t' [= <-]; auto.
    - intros t' [=].
  Qed.
  Lemma counted_test x : ((cost_of (nd_def x) =? 0)%N && negb (base_composite S (nd_def x)) = true <-> ~ cnt x).
  Proof.
    unfold counted. rewrite andb_true_iff, N.eqb_eq, negb_true_iff, base_composite_false. split.
    - intros (-> & B) [H|H]; auto.
    - intros H. assert (E : cost_of (nd_def x) = 0%N) by (destruct (N.eq_dec (cost_of (nd_def x)) 0); tauto). split; auto.
      apply base_composite_false. destruct (base_composite S (nd_def x)) eqn:E1; auto. exfalso. apply H. right. rewrite <- base_composite_false. congruence.
  Qed.

  Lemma find_insert t key next sc tn k :
    find_scope M (insert_scope M t key next sc) tn k =
    if teqb (td_name t) tn && teqb key k then Some (match find_scope M sc tn k with Some j => j | None => next end) else find_scope M sc tn k.
  Proof.
    unfold find_scope, insert_scope. cbn [cs_typed]. rewrite entry_assoc.
    destruct (teqb_spec (td_name t) tn) as [<-|Hn]; cbn [andb]; [|destruct (assoc tn (cs_typed M sc)) as [(? & ?)|]; auto].
    destruct (assoc (td_name t) (cs_typed M sc)) as [(t0, inner)|] eqn:E; cbn [fst snd]; rewrite entry_assoc;
      destruct (teqb_spec key k) as [<-|Hk]; auto.
  Qed.
  Lemma find_default m tn k : find_scope M (default_scope M m) tn k = None.
  Proof. reflexivity. Qed.
  Lemma find_set_costs a b sc tn k : find_scope M (set_costs M a b sc) tn k = find_scope M sc tn k.
  Proof. reflexivity. Qed.

  Lemma insert_typed x next sc : NoDup (map fst (cs_typed M sc)) ->
    (forall tn t inner, In (tn, (t, inner)) (cs_typed M sc) -> get_type S tn = Some t /\ inner <> []) ->
    get_type S (td_name (nd_type x)) = Some (nd_type x) ->
    let sc' := insert_scope M (nd_type x) (nd_key x) next sc in
    NoDup (map fst (cs_typed M sc')) /\ forall tn t inner, In (tn, (t, inner)) (cs_typed M sc') -> get_type S tn = Some t /\ inner <> [].
  Proof.
    intros Hnd Ht Hx sc'. unfold sc', insert_scope; cbn [cs_typed].
    assert (Hnd' := entry_NoDup (td_name (nd_type x)) (nd_type x, []) (fun e => (fst e, entry (nd_key x) next (fun i => i) (snd e))) _ Hnd).
    split; auto. intros tn t inner Hin.
    apply (assoc_NoDup _ _ _ Hnd') in Hin. rewrite entry_assoc in Hin.
    destruct (teqb_spec (td_name (nd_type x)) tn) as [<-|Hn].
    - assert (Ne : forall l, entry (nd_key x) next (fun i => i) l <> []).
      { intros [|(a, b) l]; cbn; [discriminate|]. destruct (teqb a (nd_key x)); discriminate. }
      destruct (assoc (td_name (nd_type x)) (cs_typed M sc)) as [(t0, i0)|] eqn:E; cbn [fst snd] in Hin; inversion Hin; subst; split; auto; [|discriminate].
      eapply Ht. eapply assoc_In; eauto.
    - apply assoc_In in Hin. eauto.
  Qed.

  (** The invariant after a field has been entered, from what has become of the arena. *)
  Lemma inv_extend A H i j x sc sc' scj A' : Inv A H -> nth_error A i = Some sc -> source H i x -> cnt x ->
    get_type S (td_name (nd_type x)) = Some (nd_type x) ->
    length A <= length A' -> i < j -> j < length A' -> (forall k, k < length A' -> k < length A \/ k = j) ->
    (forall k, k <> i -> k <> j -> nth_error A' k = nth_error A k) ->
    nth_error A' i = Some sc' -> cs_cost M sc' = cs_cost M sc -> cs_mult M sc' = cs_mult M sc -> cs_fm M sc' = cs_fm M sc ->
    (forall tn k, find_scope M sc' tn k = if teqb (td_name (nd_type x)) tn && teqb (nd_key x) k then Some j else find_scope M sc tn k) ->
    (NoDup (map fst (cs_typed M sc')) /\ forall tn t inner, In (tn, (t, inner)) (cs_typed M sc') -> get_type S tn = Some t /\ inner <> []) ->
    nth_error A' j = Some scj ->
    (find_scope M sc (td_name (nd_type x)) (nd_key x) = Some j /\
     (exists sc0, nth_error A j = Some sc0 /\ scj = set_costs M (multiplier_for (cs_fm M sc) (nd_field x)) (cost_of (nd_def x)) sc0) \/
     find_scope M sc (td_name (nd_type x)) (nd_key x) = None /\ j = length A /\
     scj = set_costs M (multiplier_for (cs_fm M sc) (nd_field x)) (cost_of (nd_def x)) (default_scope M (multipliers_of (nd_def x) (nd_field x)))) ->
    Inv A' ((i, j, x) :: H).
  Proof using Consistent.
    intros I Ei Hsrc Hc Ht La Lij Lj Lk Hother Ei' Ecost Emult Efm Efind Etyped Ej Hj.
    assert (Hmult := source_mult _ _ _ _ _ I Hsrc Ei).
    assert (Hincl : incl H ((i, j, x) :: H)) by (intros z Hz; right; auto).
    (* the entries of [j] in [H] *)
    assert (HoldJ : forall p y, In (p, j, y) H -> p = i /\ td_name (nd_type y) = td_name (nd_type x) /\ nd_key y = nd_key x /\
              find_scope M sc (td_name (nd_type x)) (nd_key x) = Some j).
    { intros p y Hy. destruct Hj as [(Hf & _)|(_ & -> & _)]; [|apply (inv_lt _ _ I) in Hy; lia].
      destruct (proj1 (inv_entry _ _ I i j _ _) (ex_intro _ sc (conj Ei Hf))) as (z & Hz & Ez & Kz).
      destruct (inv_inj _ _ I _ _ _ _ _ Hy Hz) as (-> & Et & Ek). split; auto. split; [congruence|]. split; [congruence|auto]. }
    assert (Hsame : forall y, In (i, j, y) H -> same x y /\ same y x).
    { intros y Hy. destruct (HoldJ _ _ Hy) as (_ & Et & Ek & _).
      split; (eapply source_same; [exact I| | | | |]); eauto using inv_src; intros p a b Ha Hb; eapply hist_same; eauto. }
    constructor.
    - lia.
    - intros k1 k2 tn k. split.
      + intros (s0 & E0 & F0). destruct (Nat.eq_dec k1 i) as [->|Hki].
        * rewrite Ei' in E0; injection E0 as <-. rewrite Efind in F0.
          destruct (teqb_spec (td_name (nd_type x)) tn) as [En|Hn]; [destruct (teqb_spec (nd_key x) k) as [Ek|Hk]|]; cbn [andb] in F0.
          -- injection F0 as <-. exists x. split; [left; auto|auto].
          -- destruct (proj1 (inv_entry _ _ I i k2 _ _) (ex_intro _ sc (conj Ei F0))) as (z & Hz & ?). exists z. split; [right; auto|auto].
          -- destruct (proj1 (inv_entry _ _ I i k2 _ _) (ex_intro _ sc (conj Ei F0))) as (z & Hz & ?). exists z. split; [right; auto|auto].
        * destruct (Nat.eq_dec k1 j) as [->|Hkj].
          -- rewrite Ej in E0; injection E0 as <-. destruct Hj as [(_ & sc0 & E0 & ->)|(_ & _ & ->)].
             ++ rewrite find_set_costs in F0.
                destruct (proj1 (inv_entry _ _ I j k2 _ _) (ex_intro _ sc0 (conj E0 F0))) as (z & Hz & ?). exists z. split; [right; auto|auto].
             ++ rewrite find_set_costs, find_default in F0. discriminate.
          -- rewrite Hother in E0 by auto.
             destruct (proj1 (inv_entry _ _ I k1 k2 _ _) (ex_intro _ s0 (conj E0 F0))) as (z & Hz & ?). exists z. split; [right; auto|auto].
      + intros (z & [[= <- <- <-]|Hz] & <- & <-).
        * exists sc'. split; auto. rewrite Efind, !teqb_refl. reflexivity.
        * destruct (proj2 (inv_entry _ _ I k1 k2 _ _) (ex_intro _ z (conj Hz (conj eq_refl eq_refl)))) as (s0 & E0 & F0).
          destruct (Nat.eq_dec k1 i) as [->|Hki].
          -- rewrite Ei in E0; injection E0 as <-. exists sc'. split; auto. rewrite Efind.
             destruct (teqb_spec (td_name (nd_type x)) (td_name (nd_type z))) as [En|Hn]; [destruct (teqb_spec (nd_key x) (nd_key z)) as [Ek|Hk]|]; cbn [andb]; auto.
             rewrite <- En, <- Ek in F0. destruct Hj as [(Hf & _)|(Hf & _)]; congruence.
          -- destruct (Nat.eq_dec k1 j) as [->|Hkj].
             ++ destruct Hj as [(_ & sc0 & E0' & ->)|(_ & -> & _)].
                ** rewrite E0' in E0; injection E0 as <-. eexists; split; [exact Ej|]. rewrite find_set_costs. auto.
                ** rewrite (proj2 (nth_error_None A (length A))) in E0 by lia. discriminate.
             ++ exists s0. rewrite Hother by auto. auto.
    - intros i0 j0 x0 [[= <- <- <-]|Hz]; [auto|]. destruct (inv_lt _ _ I _ _ _ Hz) as (? & ? & ? & ?). split; auto. split; [lia|auto].
    - intros i1 j1 x1 i2 x2 [[= <- <- <-]|H1] [[= <- <-]|H2]; auto.
      + destruct (HoldJ _ _ H2) as (-> & ? & ? & _). auto.
      + subst. destruct (HoldJ _ _ H1) as (-> & ? & ? & _). auto.
      + eapply inv_inj; eauto.
    - intros i0 j0 x0 s0 Hx0 E0. destruct (Nat.eq_dec j0 j) as [->|Hne].
      + rewrite Ej in E0; injection E0 as <-. destruct Hj as [(Hf & sc0 & E0 & ->)|(Hf & -> & ->)]; cbn [set_costs default_scope cs_cost].
        * destruct (proj1 (inv_entry _ _ I i j _ _) (ex_intro _ sc (conj Ei Hf))) as (z & Hz & _).
          destruct (inv_cost _ _ I _ _ _ _ Hz E0) as ((i1 & x1 & H1 & Ec1) & B). split.
          -- destruct (N.max_spec (cs_cost M sc0) (cost_of (nd_def x))) as [(_ & ->)|(_ & ->)].
             ++ exists i, x. split; [left; auto|auto].
             ++ exists i1, x1. split; [right; auto|auto].
          -- intros c (i2 & x2 & [[= <- <-]|H2] & ->); [lia|]. specialize (B _ (ex_intro _ i2 (ex_intro _ x2 (conj H2 eq_refl)))). lia.
        * rewrite N.max_0_l. split; [exists i, x; split; [left; auto|auto]|].
          intros c (i2 & x2 & [[= <- <-]|H2] & ->); [lia|]. apply (inv_lt _ _ I) in H2. lia.
      + destruct Hx0 as [[= <- <- <-]|Hx0]; [congruence|].
        assert (E1 : exists s1, nth_error A j0 = Some s1 /\ cs_cost M s1 = cs_cost M s0).
        { destruct (Nat.eq_dec j0 i) as [->|Hni]; [exists sc; split; auto; congruence|]. exists s0. rewrite <- Hother by auto. auto. }
        destruct E1 as (s1 & E1 & <-). eapply is_max_ext; [|eapply inv_cost; eauto]. intros c. cbn. split.
        * intros (i1 & x1 & H1 & ->). exists i1, x1. split; [right; auto|auto].
        * intros (i1 & x1 & [[= <- -> <-]|H1] & ->); [congruence|]. eauto.
    - intros i0 j0 x0 s0 Hx0 E0. destruct (Nat.eq_dec j0 j) as [->|Hne].
      + rewrite Ej in E0; injection E0 as <-. destruct Hj as [(Hf & sc0 & E0 & ->)|(Hf & -> & ->)]; cbn [set_costs default_scope cs_mult cs_fm].
        * destruct (proj1 (inv_entry _ _ I i j _ _) (ex_intro _ sc (conj Ei Hf))) as (z & Hz & _).
          destruct (inv_mult _ _ I _ _ _ _ Hz E0) as (_ & ->).
          destruct Hx0 as [[= <- <-]|Hx0].
          -- split; [congruence|]. apply Consistent. apply Hsame. auto.
          -- destruct (HoldJ _ _ Hx0) as (-> & _). split.
             ++ rewrite (source_mult _ _ _ _ _ I (inv_src _ _ I _ _ _ Hx0) Ei). apply Consistent. apply Hsame. auto.
             ++ apply Consistent. eapply hist_same; eauto.
        * destruct Hx0 as [[= <- <-]|Hx0]; [split; [congruence|auto]|]. apply (inv_lt _ _ I) in Hx0. lia.
      + destruct Hx0 as [[= <- <- <-]|Hx0]; [congruence|].
        destruct (Nat.eq_dec j0 i) as [->|Hni].
        * rewrite Ei' in E0; injection E0 as <-. rewrite Emult, Efm. eapply inv_mult; eauto.
        * rewrite Hother in E0 by auto. eapply inv_mult; eauto.
    - intros s0 E0. destruct (Nat.eq_dec i 0) as [->|Hi0].
      + rewrite Ei' in E0; injection E0 as <-. rewrite Efm. eapply inv_root; eauto.
      + rewrite Hother in E0 by lia. eapply inv_root; eauto.
    - intros k s0 E0. destruct (Nat.eq_dec k i) as [->|Hki].
      + rewrite Ei' in E0; injection E0 as <-. auto.
      + destruct (Nat.eq_dec k j) as [->|Hkj].
        * rewrite Ej in E0; injection E0 as <-. destruct Hj as [(_ & sc0 & E0 & ->)|(_ & _ & ->)]; cbn [set_costs default_scope cs_typed].
          -- eapply inv_typed; eauto.
          -- split; [constructor|intros ? ? ? []].
        * rewrite Hother in E0 by auto. eapply inv_typed; eauto.
    - intros i0 j0 x0 [[= <- <- <-]|Hz]; eapply source_mono; eauto. eapply inv_src; eauto.
  Qed.

  Lemma enter_ok A H i stk x sc : Inv A H -> nth_error A i = Some sc -> source H i x -> cnt x ->
    get_type S (td_name (nd_type x)) = Some (nd_type x) ->
    exists A' j, enter (nd_field x) (nd_key x) (nd_def x) (nd_type x) (A, Some i :: stk) = Some (A', Some j :: Some i :: stk) /\
      Inv A' ((i, j, x) :: H) /\ length A <= length A' /\ j < length A'.
  Proof using Consistent.
    intros I Ei Hsrc Hc Ht. unfold enter_field.
    destruct ((cost_of (nd_def x) =? 0)%N && negb (base_composite S (nd_def x))) eqn:Et.
    { apply counted_test in Et. contradiction. }
    rewrite Ei. assert (Hi : i < length A) by (apply nth_error_Some; congruence).
    destruct (inv_typed _ _ I _ _ Ei) as (T1 & T2).
    destruct (find_scope M sc (td_name (nd_type x)) (nd_key x)) as [j|] eqn:Ef.
    - destruct (proj1 (inv_entry _ _ I i j _ _) (ex_intro _ sc (conj Ei Ef))) as (z & Hz & _).
      destruct (inv_lt _ _ I _ _ _ Hz) as (Lij & Lj & _).
      destruct (nth_error A j) as [sc0|] eqn:Ej; [|apply nth_error_None in Ej; lia].
      eexists _, j. split; [reflexivity|]. rewrite !upd_length. split; [|split; lia].
      eapply (inv_extend A H i j x sc (insert_scope M (nd_type x) (nd_key x) (length A) sc)); eauto; rewrite ?upd_length; try lia; auto.
      + intros k Hk1 Hk2. rewrite !upd_nth. destruct (Nat.eqb_spec j k); [congruence|]. destruct (Nat.eqb_spec i k); [congruence|auto].
      + rewrite !upd_nth. destruct (Nat.eqb_spec j i); [lia|]. rewrite Nat.eqb_refl, Ei. reflexivity.
      + intros tn k. rewrite find_insert. destruct (teqb_spec (td_name (nd_type x)) tn) as [<-|]; [|auto].
        destruct (teqb_spec (nd_key x) k) as [<-|]; [|auto]. cbn. rewrite Ef. reflexivity.
      + apply insert_typed; auto.
      + rewrite !upd_nth, Nat.eqb_refl. destruct (Nat.eqb_spec i j); [lia|]. rewrite Ej. reflexivity.
    - eexists _, (length A). split; [reflexivity|]. rewrite upd_length, app_length, upd_length. cbn [length]. split; [|split; lia].
      assert (N1 : nth_error (upd A i (insert_scope M (nd_type x) (nd_key x) (length A)) ++ [default_scope M (multipliers_of (nd_def x) (nd_field x))]) (length A)
                   = Some (default_scope M (multipliers_of (nd_def x) (nd_field x)))).
      { rewrite nth_error_app2; rewrite upd_length; [|lia]. rewrite Nat.sub_diag. reflexivity. }
      eapply (inv_extend A H i (length A) x sc (insert_scope M (nd_type x) (nd_key x) (length A) sc)); eauto; rewrite ?upd_length, ?app_length, ?upd_length; cbn [length]; try lia; auto.
      + intros k Hk1 Hk2. rewrite upd_nth. destruct (Nat.eqb_spec (length A) k); [congruence|].
        destruct (Nat.lt_ge_cases k (length A)) as [L|L].
        * rewrite nth_error_app1 by (rewrite upd_length; auto). rewrite upd_nth. destruct (Nat.eqb_spec i k); [congruence|auto].
        * rewrite (proj2 (nth_error_None A k)) by lia. apply nth_error_None. rewrite app_length, upd_length. cbn. lia.
      + rewrite upd_nth. destruct (Nat.eqb_spec (length A) i); [lia|]. rewrite nth_error_app1 by (rewrite upd_length; auto).
        rewrite upd_nth, Nat.eqb_refl, Ei. reflexivity.
      + intros tn k. rewrite find_insert. destruct (teqb_spec (td_name (nd_type x)) tn) as [<-|]; [|auto].
        destruct (teqb_spec (nd_key x) k) as [<-|]; [|auto]. cbn. rewrite Ef. reflexivity.
      + apply insert_typed; auto.
      + rewrite upd_nth, Nat.eqb_refl, N1. reflexivity.
  Qed.

  (** ** visiting a selection set inside the scope [i] *)
  Definition complete (H : hist) (i : nat) (x : node) : Prop := forall y, child x y -> cnt y -> exists j, In (i, j, y) H.
  Definition good (evs : list oevent) (P : node -> Prop) : Prop := forall A H i stk, Inv A H -> i < length A ->
    (forall x, P x -> source H i x) ->
    exists A' H', run evs (Some (A, Some i :: stk)) = Some (A', Some i :: stk) /\ Inv A' H' /\ incl H H' /\ length A <= length A' /\
      (forall p j x, In (p, j, x) H' -> In (p, j, x) H \/ complete H' j x) /\
      (forall x, P x -> cnt x -> exists j, In (i, j, x) H').
  Lemma complete_mono H H' i x : incl H H' -> complete H i x -> complete H' i x.
  Proof. intros Hi Hc y Hy Hn. destruct (Hc y Hy Hn) as (j & Hj). eauto. Qed.
  Lemma good_quiet evs (P : node -> Prop) : quiet evs -> (forall x, P x -> False) -> good evs P.
  Proof.
    intros Hq HP A H i stk I Hi Hs. exists A, H. rewrite quiet_run by auto. split; auto. split; auto. split; [intros ? ?; auto|].
    split; auto. split; auto. intros x Hx. destruct (HP _ Hx).
  Qed.
  Lemma good_app e1 e2 (P1 P2 P : node -> Prop) : good e1 P1 -> good e2 P2 -> (forall x, P x <-> P1 x \/ P2 x) -> good (e1 ++ e2) P.
  Proof.
    intros G1 G2 HP A H i stk I Hi Hs.
    destruct (G1 A H i stk I Hi) as (A1 & H1 & R1 & I1 & J1 & L1 & C1 & D1). { intros x Hx. apply Hs, HP; auto. }
    destruct (G2 A1 H1 i stk I1) as (A2 & H2 & R2 & I2 & J2 & L2 & C2 & D2). { lia. }
    { intros x Hx. eapply source_mono; [exact J1|]. apply Hs, HP; auto. }
    exists A2, H2. rewrite fold_left_app, R1. split; auto. split; auto. split; [intros z Hz; auto|]. split; [lia|]. split.
    - intros p j x Hx. destruct (C2 _ _ _ Hx) as [Hx'|]; auto. destruct (C1 _ _ _ Hx') as [|Hc]; auto. right. eapply complete_mono; eauto.
    - intros x Hx Hc. apply HP in Hx as [Hx|Hx]; [|auto]. destruct (D1 x Hx Hc) as (j & Hj). eauto.
  Qed.
  Lemma good_flat {B} (f : B -> list oevent) (Q : B -> node -> Prop) l (P : node -> Prop) :
    (forall s, In s l -> good (f s) (Q s)) -> (forall x, P x <-> exists s, In s l /\ Q s x) -> good (flat_map f l) P.
  Proof.
    revert P. induction l as [|s l IH]; intros P Hg HP; cbn [flat_map].
    - apply good_quiet; [apply quiet_nil|]. intros x Hx. apply HP in Hx as (? & [] & _).
    - eapply (good_app _ _ (Q s) (fun x => exists s, In s l /\ Q s x)).
      + apply Hg. left; auto.
      + apply IH; [|reflexivity]. intros; apply Hg; right; auto.
      + intros x. rewrite HP. split.
        * intros (s' & [<-|Hs] & Hq); [left; auto|right; eauto].
        * intros [Hq|(s' & Hs & Hq)]; [exists s; split; [left; auto|auto]|exists s'; split; [right; auto|auto]].
  Qed.
  Lemma good_ext evs (P Q : node -> Prop) : good evs P -> (forall x, P x <-> Q x) -> good evs Q.
  Proof. intros G E. rewrite <- (app_nil_r evs). eapply good_app; [exact G|apply (good_quiet [] (fun _ => False)); [apply quiet_nil|tauto]|]. intros x. rewrite E. tauto. Qed.

  Lemma good_skip e1 e2 (P : node -> Prop) : quiet e1 -> good e2 P -> good (e1 ++ e2) P.
  Proof. intros Hq G. eapply good_app; [apply (good_quiet e1 (fun _ => False)); auto|exact G|]. intros x; tauto. Qed.

  (** the fields of a selection, if it is included *)
  Definition nodes_of (m : M) (inc : bool) (act : list name) (t : tdef) (ts : list tdef) (sels : list selection) (x : node) : Prop :=
    inc = true /\ inset act t ts sels (nd_active x) (nd_type x) (nd_outer x) (nd_field x) /\ has_field (nd_type x) (nd_name x) (nd_def x) /\
    nd_mult x = multiplier_for m (nd_field x).
  Lemma nodes_of_list m inc act t ts sels x : nodes_of m inc act t ts sels x <-> exists s, In s sels /\ nodes_of m inc act t ts [s] x.
  Proof.
    unfold nodes_of. split.
    - intros (Hi & Hin & Hr). apply inset_one in Hin as (s & Hs & Hin). exists s. auto.
    - intros (s & Hs & Hi & Hin & Hr). split; auto. split; auto. eapply inset_In; eauto.
  Qed.

  Lemma enter_field_good m act t ts al n args ds sub fd evs :
    get_type S (td_name t) = Some t -> has_field t n fd -> keeps ds ->
    let x := {| nd_alias := al; nd_name := n; nd_args := args; nd_dirs := ds; nd_sub := sub; nd_def := fd; nd_type := t; nd_outer := ts;
                nd_active := act; nd_mult := multiplier_for m (SField al n args ds sub) |} in
    good evs (child x) -> ((forall y, ~ child x y) -> quiet evs) ->
    good (OEnter al n args ds sub fd t true :: evs ++ [OLeave true]) (nodes_of m true act t ts [SField al n args ds sub]).
  Proof using Consistent Leaves.
    intros Ht Hf Hk x Hg Hq.
    assert (Hx : forall y, nodes_of m true act t ts [SField al n args ds sub] y <-> y = x).
    { intros y. split.
      - intros (_ & Hin & Hf' & Hm).
        assert (E : nd_active y = act /\ nd_type y = t /\ nd_outer y = ts /\ nd_field y = SField al n args ds sub).
        { apply inset_single in Hin. tauto. }
        destruct E as (E1 & E2 & E3 & E4). destruct y; unfold nd_field in *; cbn in *. subst. injection E4 as <- <- <- <- <-.
        unfold has_field in *. rewrite Hf in Hf'. injection Hf' as <-. reflexivity.
      - intros ->. split; auto. split; [|split; [exact Hf|reflexivity]]. apply is_field; [left; reflexivity|exact Hk]. }
    intros A H i stk I Hi Hsrc. specialize (Hsrc x (proj2 (Hx x) eq_refl)).
    destruct (nth_error A i) as [sc|] eqn:Ei; [|apply nth_error_None in Ei; lia].
    cbn [fold_left complexity_step].
    change (field_key al n) with (nd_key x). change (SField al n args ds sub) with (nd_field x) at 1.
    change fd with (nd_def x) at 1. change t with (nd_type x) at 1.
    destruct ((cost_of (nd_def x) =? 0)%N && negb (base_composite S (nd_def x))) eqn:Et.
    - assert (Hu : ~ cnt x) by (apply counted_test; auto).
      assert (Hqq : quiet evs) by (apply Hq; intros y; apply Leaves; auto; eapply source_op; eauto).
      assert (Ee : enter (nd_field x) (nd_key x) (nd_def x) (nd_type x) (A, Some i :: stk) = Some (A, None :: Some i :: stk)) by (unfold enter_field; rewrite Et; reflexivity).
      rewrite Ee, fold_left_app, (quiet_run evs) by auto. cbn. exists A, H. split; auto. split; auto. split; [intros ? ?; auto|]. split; auto. split; auto.
      intros y Hy Hc. apply Hx in Hy as ->. contradiction.
    - assert (Hc : cnt x).
      { destruct (N.eq_dec (cost_of (nd_def x)) 0) as [E0|]; [|left; auto]. right. rewrite <- base_composite_false. rewrite E0 in Et. intros E1. rewrite E1 in Et. discriminate Et. }
      destruct (enter_ok A H i stk x sc I Ei Hsrc Hc Ht) as (A1 & j & Ee & I1 & L1 & Lj). rewrite Ee.
      destruct (Hg A1 ((i, j, x) :: H) j (Some i :: stk) I1 Lj) as (A2 & H2 & R2 & I2 & J2 & L2 & C2 & D2).
      { intros y Hy. right. exists i, x. split; [left; auto|auto]. }
      rewrite fold_left_app, R2. cbn. exists A2, H2. split; auto. split; auto. split; [intros z Hz; apply J2; right; auto|]. split; [lia|]. split.
      + intros p k z Hz. destruct (C2 _ _ _ Hz) as [[[= <- <- <-]|Hz']|]; auto.
      + intros y Hy _. apply Hx in Hy as ->. exists j. apply J2. left; auto.
  Qed.

  Lemma visit_good fuel : forall s act t ts inc m, NoDup act -> incl act (map fr_name (doc_frags d)) -> length (doc_frags d) <= fuel + length act ->
    get_type S (td_name t) = Some t -> good (visit fuel act t inc s) (nodes_of m inc act t ts [s]).
  Proof using Consistent Leaves.
    assert (Gt : forall n t, get_type S n = Some t -> get_type S (td_name t) = Some t).
    { intros n t E. destruct (get_type_Some _ _ _ E) as (_ & ->). auto. }
    assert (Inline : forall m inc act t ts c ds sub x,
      nodes_of m inc act t ts [SInline c ds sub] x <->
      match (match c with Some c => get_type S c | None => Some t end) with
      | Some t' => nodes_of m (inc && selection_included o vals ds) act t' (match c with Some _ => t :: ts | None => ts end) sub x
      | None => False
      end).
    { intros m inc act t ts c ds sub x. unfold nodes_of. split.
      - intros (Hi & Hin & Hr). apply inset_single in Hin. destruct c as [c|].
        + destruct Hin as (Hk & t1 & -> & Hin). rewrite andb_true_iff. auto.
        + destruct Hin as (Hk & Hin). rewrite andb_true_iff. auto.
      - destruct c as [c|]; [destruct (get_type S c) as [t'|] eqn:E; [|tauto]|]; rewrite andb_true_iff; intros ((Hi & Hk) & Hin & Hr); split; auto; split; auto.
        + eapply is_inline_on; eauto. left; auto.
        + eapply is_inline; eauto. left; auto. }
    assert (Spread : forall m inc act t ts n ds x,
      nodes_of m inc act t ts [SSpread n ds] x <->
      (tmem n act = false /\ match cached_fragment d n with
      | Some f => match get_type S (fr_cond f) with
                  | Some t' => nodes_of m (inc && selection_included o vals ds) (n :: act) t' (t :: ts) (fr_sel f) x
                  | None => False
                  end
      | None => False
      end)).
    { intros m inc act t ts n ds x. unfold nodes_of. split.
      - intros (Hi & Hin & Hr). apply inset_single in Hin as (Hk & Hna & fr & t1 & Hd & Hc & Hin).
        apply tmem_false in Hna. split; auto. rewrite (proj2 (cached_defines d n fr) Hd), Hc, andb_true_iff. auto.
      - intros (Hna & H). destruct (cached_fragment d n) as [f|] eqn:Ef; [|tauto]. destruct (get_type S (fr_cond f)) as [t'|] eqn:Et; [|tauto].
        rewrite andb_true_iff in H. destruct H as ((Hi & Hk) & Hin & Hr). split; auto. split; auto. eapply is_spread; eauto; [left; auto|apply tmem_false; auto|apply cached_defines; auto]. }
    assert (FieldCase : forall fuel al n args ds sub,
      Forall (fun s => forall act t ts inc m, NoDup act -> incl act (map fr_name (doc_frags d)) -> length (doc_frags d) <= fuel + length act ->
         get_type S (td_name t) = Some t -> good (visit fuel act t inc s) (nodes_of m inc act t ts [s])) sub ->
      forall act t ts inc m, NoDup act -> incl act (map fr_name (doc_frags d)) -> length (doc_frags d) <= fuel + length act ->
         get_type S (td_name t) = Some t -> good (visit fuel act t inc (SField al n args ds sub)) (nodes_of m inc act t ts [SField al n args ds sub])).
    { intros fl al n args ds sub IHs act t ts inc m Hnd Hi Hl Ht. rewrite Forall_forall in IHs.
      destruct (get_field (td_fields t) n) as [fd|] eqn:Ef.
      2:{ apply good_quiet; [apply quiet_visit with (ts := ts)|].
          - intros _ act' t' ts' al' n' args' ds' sub' fd Hin.
            apply inset_single in Hin as (_ & _ & -> & _ & [= <- <- <- <- <-]). unfold has_field. congruence.
          - intros x (_ & Hin & Hf & _).
            apply inset_single in Hin as (_ & _ & E1 & _ & E2). unfold nd_field in E2. injection E2 as E2 E3 E4 E5 E6. unfold has_field in *. congruence. }
      destruct (inc && selection_included o vals ds) eqn:Ei.
      - apply andb_true_iff in Ei as (-> & Ek). rewrite ovisit_field, Ef. cbn [andb]. rewrite Ek.
        apply good_skip; [apply quiet_odirs|].
        rewrite app_assoc. apply (enter_field_good m act t ts al n args ds sub fd); auto.
        + apply good_skip; [apply quiet_oargs|].
          destruct sub as [|s0 sub'] eqn:Es.
          { apply good_quiet; [apply quiet_nil|]. intros y (t1 & _ & Hin & _). cbn in Hin. apply inset_one in Hin as (s & [] & _). }
          rewrite <- Es in *. clear Es s0 sub'. 
          destruct (get_type S (tref_base (fd_type fd))) as [t1|] eqn:Et1.
          2:{ apply good_quiet; [apply quiet_nil|]. intros y (t1 & E & _). cbn in E. congruence. }
          eapply (good_flat _ (fun s => nodes_of (multipliers_of fd (SField al n args ds sub)) true act t1 [] [s])).
          * intros s Hs. apply IHs; eauto.
          * intros y. unfold child_node, set_node. cbn [nd_def nd_sub nd_active nd_field]. rewrite <- nodes_of_list. unfold nodes_of, nd_field; cbn. split.
            -- intros (t2 & E & Hy). rewrite Et1 in E; injection E as <-. auto.
            -- intros (_ & Hy). eauto.
        + intros Hno. apply quiet_app; split; [apply quiet_oargs|]. destruct sub as [|s0 sub'] eqn:Es; [apply quiet_nil|]. rewrite <- Es in *.
          destruct (get_type S (tref_base (fd_type fd))) as [t1|] eqn:Et1; [|apply quiet_nil].
          apply quiet_visit_set with (ts := []). intros _ act' t' ts' al' n' args' ds' sub'' fd' Hin Hf'.
          eapply (Hno {| nd_alias := al'; nd_name := n'; nd_args := args'; nd_dirs := ds'; nd_sub := sub''; nd_def := fd'; nd_type := t'; nd_outer := ts';
                nd_active := act'; nd_mult := multiplier_for (multipliers_of fd (SField al n args ds sub)) (SField al' n' args' ds' sub'') |}).
          exists t1. split; [exact Et1|]. split; [exact Hin|]. split; [exact Hf'|reflexivity].
      - assert (Hno : inc = true -> ~ keeps ds) by (intros ->; unfold keeps; cbn in Ei; congruence).
        assert (Hz : forall act' t' ts' f, inc = true -> ~ inset act t ts [SField al n args ds sub] act' t' ts' f).
        { intros act' t' ts' f Hinc Hin.
          apply inset_single in Hin. apply Hno; tauto. }
        apply good_quiet; [apply quiet_visit with (ts := ts)|].
        + intros Hinc act' t' ts' al' n' args' ds' sub' fd' Hin. destruct (Hz _ _ _ _ Hinc Hin).
        + intros x (Hinc & Hin & _). destruct (Hz _ _ _ _ Hinc Hin). }
    assert (InlineCase : forall fuel c ds sub,
      Forall (fun s => forall act t ts inc m, NoDup act -> incl act (map fr_name (doc_frags d)) -> length (doc_frags d) <= fuel + length act ->
         get_type S (td_name t) = Some t -> good (visit fuel act t inc s) (nodes_of m inc act t ts [s])) sub ->
      forall act t ts inc m, NoDup act -> incl act (map fr_name (doc_frags d)) -> length (doc_frags d) <= fuel + length act ->
         get_type S (td_name t) = Some t -> good (visit fuel act t inc (SInline c ds sub)) (nodes_of m inc act t ts [SInline c ds sub])).
    { intros fl c ds sub IHs act t ts inc m Hnd Hi Hl Ht. rewrite Forall_forall in IHs. rewrite ovisit_inline.
      apply good_skip; [apply quiet_odirs|]; eapply good_ext; [|intros y; symmetry; apply Inline].
      destruct (match c with Some c => get_type S c | None => Some t end) as [t'|] eqn:Et.
      - eapply (good_flat _ (fun s => nodes_of m (inc && selection_included o vals ds) act t' (match c with Some _ => t :: ts | None => ts end) [s])).
        + intros s Hs. apply IHs; auto. destruct c; eauto. injection Et as <-. auto.
        + intros y. apply nodes_of_list.
      - apply good_quiet; [apply quiet_nil|tauto]. }
    induction fuel as [|fuel IHf]; (induction s as [al n args ds sub IHs|n ds|c ds sub IHs] using selection_ind'; [apply FieldCase; auto| |apply InlineCase; auto]);
      intros act t ts inc m Hnd Hi Hl Ht; rewrite ovisit_spread;
      (apply good_skip; [apply quiet_odirs|]; eapply good_ext; [|intros y; symmetry; apply Spread]);
      (destruct (tmem n act) eqn:E; [apply good_quiet; [apply quiet_nil|intros x (? & _); discriminate]|]);
      (destruct (cached_fragment d n) as [f|] eqn:Ef; [|apply good_quiet; [apply quiet_nil|tauto]]);
      (destruct (get_type S (fr_cond f)) as [t'|] eqn:Et; [|apply good_quiet; [apply quiet_nil|tauto]]);
      apply tmem_false in E; apply cached_defines, defines_In in Ef;
      (assert (Hb : length (n :: act) <= length (doc_frags d)) by
        (rewrite <- (map_length fr_name); apply NoDup_incl_length; [constructor; auto|intros z [<-|Hz]; auto])); cbn [length] in Hb; [lia|].
    eapply good_ext with (P := nodes_of m (inc && selection_included o vals ds) (n :: act) t' (t :: ts) (fr_sel f)); [|tauto].
    eapply (good_flat _ (fun s => nodes_of m (inc && selection_included o vals ds) (n :: act) t' (t :: ts) [s])).
    - intros s Hs. apply IHf; eauto; [constructor; auto|intros z [<-|Hz]; auto|cbn; lia].
    - intros y. apply nodes_of_list.
  Qed.

  Lemma start_inv : Inv [default_scope M mdefault] [].
  Proof.
    constructor; try (intros; match goal with H : In _ [] |- _ => destruct H end).
    - cbn; lia.
    - intros i j tn k. split.
      + intros (sc & E & F). destruct i as [|[|i]]; cbn in E; try discriminate. injection E as <-. discriminate.
      + intros (x & [] & _).
    - intros sc [= <-]. reflexivity.
    - intros i sc E. destruct i as [|[|i]]; cbn in E; try discriminate. injection E as <-. split; [constructor|intros ? ? ? []].
  Qed.
  (** the state after the whole visit *)
  Lemma visit_operation_ok : exists A H, run (ovisit_operation S d o vals) (Some (complexity_start M mdefault)) = Some (A, [Some 0]) /\ Inv A H /\
    (forall p j x, In (p, j, x) H -> complete H j x) /\ (forall x, root x -> cnt x -> exists j, In (0, j, x) H).
  Proof using Consistent Leaves.
    assert (Qv : quiet (map OVarDef (op_vars o))) by (intros ev Hev; apply in_map_iff in Hev as (? & <- & _); reflexivity).
    assert (G : good (ovisit_operation S d o vals) root).
    { unfold ovisit_operation. apply good_skip; [apply quiet_odirs|].
      eapply good_app; [|apply (good_quiet _ (fun _ => False)); auto|intros x; split; [intros Hx; left; exact Hx|intros [Hx|[]]; exact Hx]].
      destruct (op_root_name S (op_type o)) as [n|] eqn:En; [destruct (get_type S n) as [t|] eqn:Et|].
      - eapply (good_flat _ (fun s => nodes_of mdefault true [] t [] [s])).
        + intros s Hs. apply visit_good; [constructor|intros ? []|cbn; lia|]. destruct (get_type_Some _ _ _ Et) as (_ & ->). auto.
        + intros x. rewrite <- nodes_of_list. unfold root_node, set_node, nodes_of. split.
          * intros (t' & Hr & Hx). apply op_root_type in Hr as (n' & En' & Et'). assert (t' = t) as -> by congruence. auto.
          * intros (_ & Hx). exists t. split; auto. apply op_root_type. eauto.
      - apply good_quiet; [intros ev [<-|[]]; reflexivity|]. intros x (t & Hr & _). apply op_root_type in Hr as (n' & En' & Et'). congruence.
      - apply good_quiet; [apply quiet_nil|]. intros x (t & Hr & _). apply op_root_type in Hr as (n' & En' & Et'). congruence. }
    destruct (G _ _ 0 [] start_inv) as (A & H & R & I & _ & _ & C & D); [cbn; lia|intros x Hx; left; auto|].
    exists A, H. split; [exact R|]. split; auto. split; [|auto]. intros p j x Hx. destruct (C _ _ _ Hx) as [[]|]; auto.
  Qed.

  (** ** the evaluation of the scopes *)
  Notation poss := (possible_type_names S).
  Lemma poss_iff t T : In T (poss t) <-> possible S t T.
  Proof.
    unfold possible_type_names. assert (H := possible_types_spec S t). destruct (possible_types S t) as [l|]; [apply H|].
    split; [intros []|]. intros Hp. inversion Hp; subst; discriminate.
  Qed.
  Section Eval.
    Variable A : arena M.
    Variable H : hist.
    Hypothesis I : Inv A H.
    Hypothesis C : forall p j x, In (p, j, x) H -> complete H j x.
    (** the fields directly inside the scopes [L] *)
    Definition fields_in (L : list nat) (y : node) : Prop := exists i j, In i L /\ In (i, j, y) H.
    Lemma in_scopes_at L sc : In sc (scopes_at M A L) <-> exists i, In i L /\ nth_error A i = Some sc.
    Proof.
      unfold scopes_at. rewrite in_flat_map. split.
      - intros (i & Hi & Hsc). destruct (nth_error A i) as [sc'|] eqn:E; [|destruct Hsc]. destruct Hsc as [<-|[]]. eauto.
      - intros (i & Hi & E). exists i. rewrite E. split; auto. left; auto.
    Qed.
    Lemma in_inner T L inner : In inner (inner_for S M T (scopes_at M A L)) <->
      exists i sc tn t, In i L /\ nth_error A i = Some sc /\ assoc tn (cs_typed M sc) = Some (t, inner) /\ possible S t T.
    Proof using I.
      unfold inner_for. rewrite in_flat_map. split.
      - intros (sc & Hsc & Hin). apply in_scopes_at in Hsc as (i & Hi & E). apply in_flat_map in Hin as ((tn & t & inner') & Hin & Hif).
        cbn [fst snd] in Hif. destruct (tmem T (poss t)) eqn:Ep; [|destruct Hif]. destruct Hif as [<-|[]].
        apply tmem_In, poss_iff in Ep. exists i, sc, tn, t. split; auto. split; auto. split; auto.
        apply assoc_NoDup; auto. apply (inv_typed _ _ I _ _ E).
      - intros (i & sc & tn & t & Hi & E & Ea & Ep). exists sc. split; [apply in_scopes_at; eauto|]. apply in_flat_map.
        exists (tn, (t, inner)). split; [apply assoc_In; auto|]. cbn. rewrite (proj2 (tmem_In T _)); [left; auto|]. apply poss_iff; auto.
    Qed.
    Lemma inner_entry T L k j : (exists inner, In inner (inner_for S M T (scopes_at M A L)) /\ assoc k inner = Some j) <->
      exists i x, In i L /\ In (i, j, x) H /\ possible S (nd_type x) T /\ nd_key x = k.
    Proof using I.
      split.
      - intros (inner & Hin & Ea). apply in_inner in Hin as (i & sc & tn & t & Hi & E & Et & Hp).
        destruct (proj1 (inv_entry _ _ I i j tn k)) as (x & Hx & En & Ek). { exists sc. split; auto. unfold find_scope. rewrite Et. auto. }
        exists i, x. split; auto. split; auto. split; auto.
        destruct (inv_typed _ _ I _ _ E) as (_ & Ht). destruct (Ht _ _ _ (assoc_In _ _ _ Et)) as (Ht' & _).
        destruct (inv_lt _ _ I _ _ _ Hx) as (_ & _ & _ & Hg). congruence.
      - intros (i & x & Hi & Hx & Hp & Ek).
        destruct (proj2 (inv_entry _ _ I i j _ _) (ex_intro _ x (conj Hx (conj eq_refl eq_refl)))) as (sc & E & F).
        unfold find_scope in F. destruct (assoc (td_name (nd_type x)) (cs_typed M sc)) as [(t, inner)|] eqn:Ea; [|discriminate].
        exists inner. rewrite <- Ek. split; auto. apply in_inner. exists i, sc, (td_name (nd_type x)), t. split; auto. split; auto. split; auto.
        destruct (inv_typed _ _ I _ _ E) as (_ & Ht). destruct (Ht _ _ _ (assoc_In _ _ _ Ea)) as (Ht' & _).
        destruct (inv_lt _ _ I _ _ _ Hx) as (_ & _ & _ & Hg). congruence.
    Qed.
    Lemma in_children T L k j : In j (children_for k (inner_for S M T (scopes_at M A L))) <->
      exists i x, In i L /\ In (i, j, x) H /\ possible S (nd_type x) T /\ nd_key x = k.
    Proof using I.
      rewrite <- inner_entry. unfold children_for. rewrite in_flat_map. split.
      - intros (inner & Hin & Hj). exists inner. split; auto. destruct (assoc k inner); [|destruct Hj]. destruct Hj as [<-|[]]. auto.
      - intros (inner & Hin & Hj). exists inner. split; auto. rewrite Hj. left; auto.
    Qed.
    Lemma in_keys T L k : In k (unique_by (fun k => k) (flat_map (map fst) (inner_for S M T (scopes_at M A L)))) <->
      exists i j x, In i L /\ In (i, j, x) H /\ possible S (nd_type x) T /\ nd_key x = k.
    Proof using I.
      rewrite (proj2 (unique_names _)), in_flat_map. split.
      - intros (inner & Hin & Hk). destruct (assoc k inner) as [j|] eqn:Ea; [|apply assoc_None in Ea; contradiction].
        destruct (proj1 (inner_entry T L k j)) as (i & x & Hx); eauto.
      - intros (i & j & x & Hx). destruct (proj2 (inner_entry T L k j)) as (inner & Hin & Ea); eauto. exists inner. split; auto.
        apply assoc_In in Ea. apply (in_map fst) in Ea. auto.
    Qed.
    Lemma in_names L T : In T (unique_by (fun n => n) (flat_map poss (unique_by td_name (flat_map (fun sc => map (fun e => fst (snd e)) (cs_typed M sc)) (scopes_at M A L))))) <->
      exists i j x, In i L /\ In (i, j, x) H /\ possible S (nd_type x) T.
    Proof using I.
      rewrite (proj2 (unique_names _)), in_flat_map.
      destruct (unique_from_spec td_name (flat_map (fun sc => map (fun e => fst (snd e)) (cs_typed M sc)) (scopes_at M A L)) []) as (_ & B1 & C1).
      fold (unique_by td_name (flat_map (fun sc => map (fun e => fst (snd e)) (cs_typed M sc)) (scopes_at M A L))) in B1, C1.
      assert (Hall : forall t, In t (flat_map (fun sc => map (fun e => fst (snd e)) (cs_typed M sc)) (scopes_at M A L)) ->
                get_type S (td_name t) = Some t /\ exists i j x, In i L /\ In (i, j, x) H /\ nd_type x = t).
      { intros t Ht. apply in_flat_map in Ht as (sc & Hsc & Ht). apply in_scopes_at in Hsc as (i & Hi & E).
        apply in_map_iff in Ht as ((tn & t' & inner) & <- & Hin). cbn [fst snd]. destruct (inv_typed _ _ I _ _ E) as (Hnd & Ht).
        destruct (Ht _ _ _ Hin) as (Hg & Hne). destruct (get_type_Some _ _ _ Hg) as (_ & Etn). split; [congruence|].
        destruct inner as [|(k, j) inner]; [congruence|].
        destruct (proj1 (inv_entry _ _ I i j tn k)) as (x & Hx & En & Ek).
        { exists sc. split; auto. unfold find_scope. rewrite (assoc_NoDup _ _ _ Hnd Hin). cbn. rewrite teqb_refl. auto. }
        exists i, j, x. split; auto. split; auto. destruct (inv_lt _ _ I _ _ _ Hx) as (_ & _ & _ & Hg'). congruence. }
      split.
      - intros (t & Ht & HT). apply poss_iff in HT. apply B1 in Ht as (Ht & _). destruct (Hall _ Ht) as (_ & i & j & x & Hi & Hx & <-). eauto 10.
      - intros (i & j & x & Hi & Hx & HT).
        destruct (proj2 (inv_entry _ _ I i j _ _) (ex_intro _ x (conj Hx (conj eq_refl eq_refl)))) as (sc & E & F).
        unfold find_scope in F. destruct (assoc (td_name (nd_type x)) (cs_typed M sc)) as [(t, inner)|] eqn:Ea; [|discriminate].
        apply assoc_In in Ea. destruct (inv_typed _ _ I _ _ E) as (_ & Ht). destruct (Ht _ _ _ Ea) as (Hg & _).
        destruct (inv_lt _ _ I _ _ _ Hx) as (_ & _ & _ & Hg'). assert (nd_type x = t) as Ext by congruence.
        assert (Hin : In t (flat_map (fun sc => map (fun e => fst (snd e)) (cs_typed M sc)) (scopes_at M A L))).
        { apply in_flat_map. exists sc. split; [apply in_scopes_at; eauto|]. apply in_map_iff. eexists; split; [|exact Ea]. reflexivity. }
        destruct (C1 _ Hin) as [[]|Hk]. apply in_map_iff in Hk as (t' & Et' & Ht').
        assert (t' = t) as ->.
        { destruct (Hall _ (proj1 (B1 _ Ht'))) as (E1 & _). destruct (Hall _ Hin) as (E2 & _). congruence. }
        exists t. split; auto. apply poss_iff. congruence.
    Qed.

    Notation innermost := (allowed_by_innermost S).
    Notation pc applies := (possible_cost S d keeps M multiplier_for cost_of multipliers_of applies).
    Notation mg applies := (merges S cost_of applies).
    Lemma merges_iff L T k x : mg innermost (fields_in L) T k x <->
      exists i j, In i L /\ In (i, j, x) H /\ possible S (nd_type x) T /\ nd_key x = k.
    Proof using I.
      unfold merges, fields_in, allowed_by_innermost. split.
      - intros ((i & j & Hi & Hx) & _ & Hp & Hk). eauto 10.
      - intros (i & j & Hi & Hx & Hp & Hk). split; eauto. split; auto. apply (inv_lt _ _ I _ _ _ Hx).
    Qed.

    Definition below (L : list nat) (T k : name) : list nat :=
      filter (fun j => match nth_error A j with Some sc => negb (match cs_typed M sc with [] => true | _ => false end) | None => false end)
        (children_for k (inner_for S M T (scopes_at M A L))).
    Lemma below_fields L T k y : cnt y -> (fields_in (below L T k) y <-> exists x, mg innermost (fields_in L) T k x /\ child x y).
    Proof using I C.
      intros Hc. split.
      - intros (j & j' & Hj & Hy). apply filter_In in Hj as (Hj & _). apply in_children in Hj as (i & x & Hi & Hx & Hp & Hk).
        destruct (inv_lt _ _ I _ _ _ Hx) as (Lx & _ & _ & Gx).
        destruct (inv_src _ _ I _ _ _ Hy) as [(-> & _)|(p & z & Hz & Hzy)]; [lia|].
        destruct (inv_inj _ _ I _ _ _ _ _ Hx Hz) as (<- & Et & Ek). exists z. split; auto. apply merges_iff. exists i, j.
        destruct (inv_lt _ _ I _ _ _ Hz) as (_ & _ & _ & Gz).
        split; auto. split; auto. split; [|congruence]. rewrite Et, Gz in Gx. injection Gx as ->. auto.
      - intros (x & Hm & Hxy). apply merges_iff in Hm as (i & j & Hi & Hx & Hp & Hk). destruct (C _ _ _ Hx y Hxy Hc) as (j' & Hj').
        exists j, j'. split; auto. apply filter_In. split; [apply in_children; eauto 10|].
        destruct (proj2 (inv_entry _ _ I j j' _ _) (ex_intro _ y (conj Hj' (conj eq_refl eq_refl)))) as (sc & E & F).
        rewrite E. unfold find_scope in F. destruct (cs_typed M sc); [discriminate|reflexivity].
    Qed.
    Lemma scopes_max {B} (f : cscope M -> N) (g : node -> N) L T k (P : B) :
      (forall i j x sc, In (i, j, x) H -> nth_error A j = Some sc -> is_max (fun c => exists i' x', In (i', j, x') H /\ c = g x') (f sc)) ->
      (exists x, mg innermost (fields_in L) T k x) ->
      is_max (fun c => exists x, mg innermost (fields_in L) T k x /\ c = g x) (list_max (map f (scopes_at M A (children_for k (inner_for S M T (scopes_at M A L)))))).
    Proof using I.
      intros Hmax (x0 & Hx0).
      set (l := map f (scopes_at M A (children_for k (inner_for S M T (scopes_at M A L))))).
      assert (Hl : forall c, In c l <-> exists j sc, In j (children_for k (inner_for S M T (scopes_at M A L))) /\ nth_error A j = Some sc /\ c = f sc).
      { intros c. unfold l. rewrite in_map_iff. split.
        - intros (sc & <- & Hsc). apply in_scopes_at in Hsc as (j & Hj & E). eauto.
        - intros (j & sc & Hj & E & ->). exists sc. split; auto. apply in_scopes_at. eauto. }
      assert (Hj : forall x, mg innermost (fields_in L) T k x -> exists i j sc, In (i, j, x) H /\ In j (children_for k (inner_for S M T (scopes_at M A L))) /\ nth_error A j = Some sc).
      { intros x Hx. apply merges_iff in Hx as (i & j & Hi & Hx & Hp & Hk). destruct (inv_lt _ _ I _ _ _ Hx) as (_ & Lj & _).
        destruct (nth_error A j) as [sc|] eqn:E; [|apply nth_error_None in E; lia]. exists i, j, sc. split; auto. split; auto. apply in_children. exists i, x. auto. }
      assert (Hne : l <> []).
      { destruct (Hj _ Hx0) as (i & j & sc & _ & Hjj & E). assert (Hin : In (f sc) l) by (apply Hl; eauto). destruct l; [destruct Hin|discriminate]. }
      destruct (list_max_is_max l Hne) as (M1 & M2). split.
      - apply Hl in M1 as (j & sc & Hjj & E & Ec). apply in_children in Hjj as (i & x & Hi & Hx & Hp & Hk).
        destruct (Hmax _ _ _ _ Hx E) as ((i' & x' & Hx' & Eg) & _). exists x'. split; [|congruence]. apply merges_iff.
        destruct (inv_inj _ _ I _ _ _ _ _ Hx Hx') as (<- & Et & Ek). exists i, j. split; auto. split; auto.
        destruct (inv_lt _ _ I _ _ _ Hx) as (_ & _ & _ & Gx). destruct (inv_lt _ _ I _ _ _ Hx') as (_ & _ & _ & Gx').
        split; [|congruence]. rewrite Et, Gx' in Gx. injection Gx as ->. auto.
      - intros c (x & Hx & ->). destruct (Hj _ Hx) as (i & j & sc & Hin & Hjj & E).
        destruct (Hmax _ _ _ _ Hin E) as (_ & B1). etransitivity; [apply B1; eauto|]. apply M2, Hl. eauto.
    Qed.

    (** [R x x']: the field [x] of some operation, in [d0], has the counterpart [x'] here; so have the fields below it. *)
    Definition counterparts (d0 : document) (keeps0 : list directive -> Prop) (R : node -> node -> Prop) : Prop :=
      (forall x x', R x x' -> nd_key x = nd_key x' /\ nd_type x = nd_type x' /\ nd_def x = nd_def x' /\ nd_mult x = nd_mult x') /\
      (forall x x' y, R x x' -> child_node S d0 keeps0 M multiplier_for multipliers_of x y -> exists y', child x' y' /\ R y y').
    Notation pc0 d0 keeps0 applies := (possible_cost S d0 keeps0 M multiplier_for cost_of multipliers_of applies).
    Lemma scopes_cost_ok fuel : forall L, 0 < fuel -> (forall i, In i L -> i < length A /\ length A - i < fuel) ->
      exists n, scopes_cost S M fuel A L = Some n /\ pc innermost (fields_in L) n /\
        forall d0 keeps0 R (applies : name -> node -> Prop) (G : node -> Prop) m, counterparts d0 keeps0 R -> (forall T x, applies T x -> innermost T x) ->
          (forall x, cnt x -> G x -> exists x', R x x' /\ fields_in L x') -> pc0 d0 keeps0 applies G m -> (m <= n)%N.
    Proof using I C.
      induction fuel as [|fuel IH]; [lia|]. intros L _ HL. cbn [scopes_cost].
      set (names := unique_by (fun n => n) (flat_map poss (unique_by td_name (flat_map (fun sc => map (fun e => fst (snd e)) (cs_typed M sc)) (scopes_at M A L))))).
      assert (Hnames : forall T, In T names <-> exists i j x, In i L /\ In (i, j, x) H /\ possible S (nd_type x) T) by (intros T; apply in_names).
      set (keys := fun T => unique_by (fun k => k) (flat_map (map fst) (inner_for S M T (scopes_at M A L)))).
      assert (Hkeys : forall T k, In k (keys T) <-> exists x, mg innermost (fields_in L) T k x).
      { intros T k. unfold keys. rewrite in_keys. split.
        - intros (i & j & x & Hx). exists x. apply merges_iff. eauto.
        - intros (x & Hx). apply merges_iff in Hx as (i & j & Hx). eauto. }
      set (base := fun T k => list_max (map (cs_cost M) (scopes_at M A (children_for k (inner_for S M T (scopes_at M A L)))))).
      set (mult := fun T k => list_max (map (cs_mult M) (scopes_at M A (children_for k (inner_for S M T (scopes_at M A L)))))).
      assert (Hbase : forall T k, In k (keys T) -> is_max (fun c => exists x, mg innermost (fields_in L) T k x /\ c = cost_of (nd_def x)) (base T k)).
      { intros T k Hk. apply (scopes_max _ (fun x => cost_of (nd_def x)) L T k 0); [|apply Hkeys; auto]. intros; eapply inv_cost; eauto. }
      assert (Hmult : forall T k, In k (keys T) -> is_max (fun c => exists x, mg innermost (fields_in L) T k x /\ c = nd_mult x) (mult T k)).
      { intros T k Hk. apply (scopes_max _ nd_mult L T k 0); [|apply Hkeys; auto]. intros i j x sc Hx E. split.
        - exists i, x. split; auto. eapply inv_mult; eauto.
        - intros c (i' & x' & Hx' & ->). destruct (inv_mult _ _ I _ _ _ _ Hx' E) as (-> & _). lia. }
      set (rec := fun T k => match scopes_cost S M fuel A (below L T k) with Some c => c | None => 0%N end).
      assert (Hrec : forall T k, In k (keys T) -> scopes_cost S M fuel A (below L T k) = Some (rec T k) /\
        pc innermost (fun y => exists x, mg innermost (fields_in L) T k x /\ child x y) (rec T k) /\
        forall d0 keeps0 R (applies : name -> node -> Prop) (G : node -> Prop) m, counterparts d0 keeps0 R -> (forall T x, applies T x -> innermost T x) ->
          (forall y, cnt y -> G y -> exists y', R y y' /\ exists x, mg innermost (fields_in L) T k x /\ child x y') -> pc0 d0 keeps0 applies G m -> (m <= rec T k)%N).
      { intros T k Hk. destruct (proj1 (Hkeys T k) Hk) as (x0 & Hx0). apply merges_iff in Hx0 as (i0 & j0 & Hi0 & _).
        destruct (IH (below L T k)) as (n & E & P & U).
        - apply HL in Hi0. lia.
        - intros j Hj. apply filter_In in Hj as (Hj & _). apply in_children in Hj as (i & x & Hi & Hx & _). apply HL in Hi.
          apply (inv_lt _ _ I) in Hx. lia.
        - unfold rec. rewrite E. split; auto. split.
          + eapply (pc_transfer S d M multiplier_for cost_of multipliers_of keeps keeps innermost innermost (fun _ => True)); [tauto|auto|tauto|exact P|auto|intros y Hy; apply below_fields; auto].
          + intros d0 keeps0 R applies G m HR Ha HG Hp. apply (U d0 keeps0 R applies G m HR Ha); [|exact Hp]. intros y Hy Gy.
            destruct (HG y Hy Gy) as (y' & Hr & Hx). exists y'. split; auto. apply below_fields; auto.
            unfold counted in *. destruct (proj1 HR _ _ Hr) as (_ & _ & <- & _). exact Hy. }
      set (cost := fun T => total (map (fun k => (base T k + rec T k) * mult T k)%N (keys T))).
      assert (Hcost : forall T, selections_cost M (scopes_cost S M fuel A) A (inner_for S M T (scopes_at M A L)) = Some (cost T)).
      { intros T. unfold selections_cost, cost, keys. apply osum_total. intros k Hk.
        change (match scopes_cost S M fuel A (below L T k) with Some c => Some ((base T k + c) * mult T k)%N | None => None end = Some ((base T k + rec T k) * mult T k)%N).
        rewrite (proj1 (Hrec T k Hk)). reflexivity. }
      set (items := fun T => map (fun k => {| it_key := k; it_cost := base T k; it_mult := mult T k; it_below := rec T k |}) (keys T)).
      assert (Hitems : forall T, pc innermost (fields_in L) (cost T)).
      { intros T.
        assert (E : cost T = total (map (fun i => (it_cost i + it_below i) * it_mult i)%N (items T))) by (unfold cost, items; rewrite map_map; reflexivity).
        assert (Ek : map it_key (items T) = keys T) by (unfold items; rewrite map_map; apply map_id).
        rewrite E. apply (pc_object _ _ _ _ _ _ _ _ _ T).
        - rewrite Ek. apply unique_names.
        - rewrite Ek. apply Hkeys.
        - intros i Hi. apply in_map_iff in Hi as (k & <- & Hk). cbn. auto.
        - intros i Hi. apply in_map_iff in Hi as (k & <- & Hk). cbn. apply Hrec; auto. }
      destruct (omax_spec (fun T => selections_cost M (scopes_cost S M fuel A) A (inner_for S M T (scopes_at M A L))) cost names) as (n & E & B & Att).
      { intros T _. apply Hcost. }
      exists n. split; [exact E|]. split.
      - destruct Att as [(En & ->)|(T & _ & <-)]; [|auto].
        assert (E0 : keys [] = []).
        { destruct (keys []) as [|k l] eqn:Ek; auto. destruct (proj1 (Hkeys [] k)) as (x & Hx); [rewrite Ek; left; auto|].
          apply merges_iff in Hx as (i & j & Hi & Hx & Hp & _). assert (In [] names) by (apply Hnames; exists i, j, x; auto). rewrite En in *. contradiction. }
        specialize (Hitems []). unfold cost in Hitems. rewrite E0 in Hitems. exact Hitems.
      - intros d0 keeps0 R applies G m HR Ha HG Hp. destruct Hp as [G T its Hnd Hk Hm Hb].
        assert (Hmg : forall k x, mg applies G T k x -> exists x', R x x' /\ mg innermost (fields_in L) T k x').
        { intros k x (H1 & H2 & H3 & H4). destruct (HG x H2 H1) as (x' & Hr & Hx'). exists x'. split; auto. destruct (proj1 HR _ _ Hr) as (E1 & E2 & E3 & _).
          apply Ha in H3. split; auto. unfold counted, allowed_by_innermost in *. rewrite <- E1, <- E2, <- E3. auto. }
        etransitivity; [apply (total_le it_key _ (fun k => (base T k + rec T k) * mult T k)%N its (keys T) Hnd)|].
        + intros i Hi. assert (Hik : In (it_key i) (keys T)).
          { apply Hkeys. destruct (proj1 (Hk (it_key i))) as (x & Hx); [apply in_map; auto|]. destruct (Hmg _ _ Hx) as (x' & _ & Hx'). eauto. }
          split; auto. destruct (Hm _ Hi) as (M1 & M2).
          assert ((it_cost i <= base T (it_key i))%N).
          { eapply is_max_le; [|exact M1|apply Hbase; auto]. intros c (x & Hx & ->). destruct (Hmg _ _ Hx) as (x' & Hr & Hx'). exists x'. split; auto.
            destruct (proj1 HR _ _ Hr) as (_ & _ & -> & _). auto. }
          assert ((it_mult i <= mult T (it_key i))%N).
          { eapply is_max_le; [|exact M2|apply Hmult; auto]. intros c (x & Hx & ->). destruct (Hmg _ _ Hx) as (x' & Hr & Hx'). exists x'. split; auto.
            destruct (proj1 HR _ _ Hr) as (_ & _ & _ & ->). auto. }
          assert ((it_below i <= rec T (it_key i))%N).
          { eapply (proj2 (proj2 (Hrec T _ Hik))); [exact HR|exact Ha| |apply Hb; auto]. intros y _ (x & Hx & Hxy). destruct (Hmg _ _ Hx) as (x' & Hr & Hx').
            destruct (proj2 HR _ _ _ Hr Hxy) as (y' & Hy' & Hr'). exists y'. split; auto. eauto. }
          apply N.mul_le_mono; lia.
        + destruct (in_dec text_dec T names) as [Hin|Hn]; [apply B; auto|].
          assert (E0 : keys T = []).
          { destruct (keys T) as [|k l] eqn:Ek; auto. destruct (proj1 (Hkeys T k)) as (x & Hx); [rewrite Ek; left; auto|].
            apply merges_iff in Hx as (i & j & Hi & Hx & Hp & _). destruct Hn. apply Hnames. exists i, j, x. auto. }
          rewrite E0. cbn. lia.
    Qed.
  End Eval.

  (** ** the whole *)
  Notation pc applies := (possible_cost S d keeps M multiplier_for cost_of multipliers_of applies).
  Lemma complexity_ok : exists n,
    complexity S M mdefault multiplier_for cost_of multipliers_of (ovisit_operation S d o vals) = CCost n /\
    pc (allowed_by_innermost S) root n /\
    (forall (applies : name -> node -> Prop) m, (forall T x, applies T x -> allowed_by_innermost S T x) -> pc applies root m -> (m <= n)%N) /\
    forall d0 keeps0 R (applies : name -> node -> Prop) (G : node -> Prop) m, counterparts d0 keeps0 R -> (forall T x, applies T x -> allowed_by_innermost S T x) ->
      (forall x, G x -> exists x', R x x' /\ root x') -> possible_cost S d0 keeps0 M multiplier_for cost_of multipliers_of applies G m -> (m <= n)%N.
  Proof using Consistent Leaves.
    destruct visit_operation_ok as (A & H & R & I & C & D). unfold complexity. rewrite R.
    destruct (scopes_cost_ok A H I C (1 + length A) [0]) as (n & E & P & U).
    - lia.
    - intros i [<-|[]]. assert (HL := inv_len _ _ I). lia.
    - rewrite E. exists n. split; auto.
      assert (F : forall x, cnt x -> (fields_in H [0] x <-> root x)).
      { intros x Hc. split.
        - intros (i & j & [<-|[]] & Hx). destruct (inv_src _ _ I _ _ _ Hx) as [(_ & Hr)|(p & y & Hy & _)]; auto. apply (inv_lt _ _ I) in Hy. lia.
        - intros Hr. destruct (D x Hr Hc) as (j & Hj). exists 0, j. split; [left; auto|auto]. }
      split.
      + eapply (pc_transfer S d M multiplier_for cost_of multipliers_of keeps keeps (allowed_by_innermost S) (allowed_by_innermost S) (fun _ => True)); [tauto|auto|tauto|exact P|auto|exact F].
      + assert (W : forall d0 keeps0 Q (applies : name -> node -> Prop) (G : node -> Prop) m, counterparts d0 keeps0 Q -> (forall T x, applies T x -> allowed_by_innermost S T x) ->
          (forall x, G x -> exists x', Q x x' /\ root x') -> possible_cost S d0 keeps0 M multiplier_for cost_of multipliers_of applies G m -> (m <= n)%N).
        { intros d0 keeps0 Q applies G m HR Ha HG Hp. apply (U d0 keeps0 Q applies G m HR Ha) with (2 := Hp). intros x Hc Hx.
          destruct (HG x Hx) as (x' & Hr & Hx'). exists x'. split; auto. apply F; auto. unfold counted in *. destruct (proj1 HR _ _ Hr) as (_ & _ & <- & _). exact Hc. }
        split; [|exact W]. intros applies m Ha Hp. apply (W d keeps eq applies root m); auto.
        * split; [intros x x' <-; auto|]. intros x x' y <- Hy. eauto.
        * intros x Hx. eauto.
  Qed.
End Visitor.
