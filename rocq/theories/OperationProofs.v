(** Lemmas about the operation orchestrator. *)
From Verif Require Import Base Ast Graph Maps Doc DocSpec DocRules DocVariablesSpec FragmentsSpec FragmentCyclesProofs Operation OperationSpec.

Section Visit.
  Variable S : schema.
  Variable d : document.
  Variable o : operation.
  Variable vals : list (name * value).
  Notation incl_ := (selection_included o vals).
  Notation visit := (ovisit S d o vals).
  Notation visit_set := (ovisit_set S d o vals).

  Lemma ovisit_field fuel active t inc al n args ds sub :
    visit fuel active t inc (SField al n args ds sub) =
    match get_field (td_fields t) n with
    | None => []
    | Some fd =>
        odirectives S ds ++
        OEnter al n args ds sub fd t (inc && incl_ ds) ::
        oargs args (fd_args fd) ++
        match sub with
        | [] => []
        | _ => match get_type S (tref_base (fd_type fd)) with Some t' => visit_set fuel active t' (inc && incl_ ds) sub | None => [] end
        end ++ [OLeave (inc && incl_ ds)]
    end.
  Proof. destruct fuel; reflexivity. Qed.
  Lemma ovisit_inline fuel active t inc c ds sub :
    visit fuel active t inc (SInline c ds sub) =
    odirectives S ds ++
    match (match c with Some c => get_type S c | None => Some t end) with
    | Some t' => visit_set fuel active t' (inc && incl_ ds) sub
    | None => []
    end.
  Proof. destruct fuel; reflexivity. Qed.
  Lemma ovisit_spread fuel active t inc n ds :
    visit fuel active t inc (SSpread n ds) =
    odirectives S ds ++
    if tmem n active then []
    else match cached_fragment d n with
         | None => []
         | Some f => match get_type S (fr_cond f) with
                     | None => []
                     | Some t' => match fuel with
                                  | 0 => [OFuel]
                                  | Datatypes.S fuel' => visit_set fuel' (n :: active) t' (inc && incl_ ds) (fr_sel f)
                                  end
                     end
         end.
  Proof. destruct fuel; reflexivity. Qed.

  Lemma cached_defines n f : cached_fragment d n = Some f <-> defines d n f.
  Proof.
    unfold cached_fragment. rewrite (defines_assoc (fun f => f)). split.
    - intros (g & H & <-); auto.
    - intros H; exists f; auto.
  Qed.
  Lemma defines_In n f : defines d n f -> In n (map fr_name (doc_frags d)).
  Proof.
    intros (b & a & E & Hn & _). rewrite E, map_app. apply in_or_app. right. left. auto.
  Qed.

  (** the fragments of a path are defined *)
  Lemma path_fragments_defined p t sels : reaches S d o p t sels -> incl (path_fragments p) (map fr_name (doc_frags d)).
  Proof.
    induction 1; cbn [path_fragments]; auto; try (intros x []; fail).
    intros x [->|Hx]; eauto using defines_In.
  Qed.
  Lemma simple_bound p t sels : reaches S d o p t sels -> simple p -> length (path_fragments p) <= length (doc_frags d).
  Proof.
    intros H Hs. rewrite <- (map_length fr_name). apply NoDup_incl_length; auto. eapply path_fragments_defined; eauto.
  Qed.

  Definition all_included (p : list step) : bool := forallb (fun s => incl_ (step_dirs s)) p.
  Definition fuel_at (p : list step) : nat := length (doc_frags d) - length (path_fragments p).
  (** the part of the visit made for the selection set reached by [p] *)
  Definition visit_at (p : list step) (t : tdef) (sels : list selection) : list oevent :=
    visit_set (fuel_at p) (path_fragments p) t (all_included p) sels.

  (** the visit of a selection at a simple path, without mention of fuel *)
  Definition visit_sel (p : list step) (t : tdef) (s : selection) : list oevent :=
    match s with
    | SField al n args ds sub =>
        match get_field (td_fields t) n with
        | None => []
        | Some fd =>
            odirectives S ds ++
            OEnter al n args ds sub fd t (all_included (StField ds :: p)) ::
            oargs args (fd_args fd) ++
            match sub with
            | [] => []
            | _ => match get_type S (tref_base (fd_type fd)) with Some t' => visit_at (StField ds :: p) t' sub | None => [] end
            end ++ [OLeave (all_included (StField ds :: p))]
        end
    | SInline c ds sub =>
        odirectives S ds ++
        match (match c with Some c => get_type S c | None => Some t end) with
        | Some t' => visit_at (StInline ds :: p) t' sub
        | None => []
        end
    | SSpread n ds =>
        odirectives S ds ++
        if tmem n (path_fragments p) then []
        else match cached_fragment d n with
             | None => []
             | Some f => match get_type S (fr_cond f) with
                         | None => []
                         | Some t' => visit_at (StSpread n ds :: p) t' (fr_sel f)
                         end
             end
    end.
  Lemma visit_at_unfold p t sels : reaches S d o p t sels -> simple p ->
    visit_at p t sels = flat_map (visit_sel p t) sels.
  Proof.
    intros H Hs. unfold visit_at, ovisit_set.
    assert (G : forall s, In s sels -> visit (fuel_at p) (path_fragments p) t (all_included p) s = visit_sel p t s).
    2:{ clear H. induction sels as [|x l IH]; cbn; auto. rewrite G, IH; auto; [|left; auto]. intros; apply G; right; auto. }
    assert (C : forall ds, all_included p && incl_ ds = incl_ ds && all_included p) by (intros; apply andb_comm).
    intros s Hin. destruct s as [al n args ds sub|n ds|c ds sub]; cbn [visit_sel].
    - rewrite ovisit_field, C. reflexivity.
    - rewrite ovisit_spread. destruct (tmem n (path_fragments p)) eqn:E; auto.
      destruct (cached_fragment d n) as [f|] eqn:Ef; auto. destruct (get_type S (fr_cond f)) as [t'|] eqn:Et; auto.
      apply tmem_false in E. apply cached_defines in Ef.
      assert (Hb : length (path_fragments (StSpread n ds :: p)) <= length (doc_frags d)).
      { eapply simple_bound. eapply r_spread; eauto. unfold simple; cbn. constructor; auto. }
      cbn in Hb. unfold visit_at. rewrite C. f_equal.
      assert (Hf : fuel_at p = Datatypes.S (fuel_at (StSpread n ds :: p))) by (unfold fuel_at; cbn; lia).
      rewrite Hf. reflexivity.
    - rewrite ovisit_inline. destruct c as [c|]; [destruct (get_type S c) as [t'|]; auto|]; rewrite C; reflexivity.
  Qed.

  (** A well-founded measure: how far a simple path can still be extended. *)
  Fixpoint sel_size (s : selection) : nat :=
    match s with
    | SField _ _ _ _ sub | SInline _ _ sub => 1 + fold_right (fun s a => sel_size s + a) 0 sub
    | SSpread _ _ => 1
    end.
  Definition sels_size (l : list selection) : nat := fold_right (fun s a => sel_size s + a) 0 l.
  Lemma sels_size_In s l : In s l -> sel_size s <= sels_size l.
  Proof. induction l as [|x l IH]; [intros []|]. intros [->|H]; cbn; [lia|]. apply IH in H. unfold sels_size in H. lia. Qed.

  (** Induction over the simple paths, from the leaves up. *)
  Lemma reach_ind (P : list step -> tdef -> list selection -> Prop) :
    (forall p t sels, reaches S d o p t sels -> simple p ->
       (forall st t' sels', reaches S d o (st :: p) t' sels' -> simple (st :: p) ->
          (match st with StSpread _ _ => True | _ => sels_size sels' < sels_size sels end) -> P (st :: p) t' sels') ->
       P p t sels) ->
    forall p t sels, reaches S d o p t sels -> simple p -> P p t sels.
  Proof.
    intros Step.
    assert (G : forall k j p t sels, fuel_at p <= k -> sels_size sels <= j -> reaches S d o p t sels -> simple p -> P p t sels).
    { induction k as [k IHk] using lt_wf_ind. induction j as [j IHj] using lt_wf_ind.
      intros p t sels Hk Hj H Hs. apply Step; auto. intros st t' sels' H' Hs' Hm.
      destruct st as [ds|ds|n ds].
      - eapply (IHj (sels_size sels')); eauto. lia.
      - eapply (IHj (sels_size sels')); eauto. lia.
      - assert (Hb := simple_bound _ _ _ H' Hs'). cbn in Hb.
        eapply (IHk (fuel_at (StSpread n ds :: p))); eauto. unfold fuel_at in *. cbn. lia. }
    intros; eapply G; eauto.
  Qed.

  Lemma sub_size_field al n args ds sub sels : In (SField al n args ds sub) sels -> sels_size sub < sels_size sels.
  Proof. intros H. apply sels_size_In in H. cbn in H. unfold sels_size at 1. lia. Qed.
  Lemma sub_size_inline c ds sub sels : In (SInline c ds sub) sels -> sels_size sub < sels_size sels.
  Proof. intros H. apply sels_size_In in H. cbn in H. unfold sels_size at 1. lia. Qed.

  Lemma in_oargs args defs ev : In ev (oargs args defs) <-> exists a i, ev = OArg a i /\ In a args /\ get_ivd defs (fst a) = Some i.
  Proof.
    unfold oargs. rewrite in_flat_map. split.
    - intros (a & Ha & H). destruct (get_ivd defs (fst a)) as [i|] eqn:E; [|destruct H]. destruct H as [<-|[]]. eauto 6.
    - intros (a & i & -> & Ha & E). exists a. rewrite E. split; auto. left; auto.
  Qed.
  Lemma in_odirectives ds ev : In ev (odirectives S ds) <->
    exists x dd a i, ev = OArg a i /\ In x ds /\ get_ddef S (dir_name x) = Some dd /\ In a (dir_args x) /\ get_ivd (dd_args dd) (fst a) = Some i.
  Proof.
    unfold odirectives. rewrite in_flat_map. split.
    - intros (x & Hx & H). destruct (get_ddef S (dir_name x)) as [dd|] eqn:E; [|destruct H].
      apply in_oargs in H as (a & i & -> & Ha & Ei). exists x, dd, a, i. auto.
    - intros (x & dd & a & i & -> & Hx & E & Ha & Ei). exists x. split; auto. rewrite E. apply in_oargs. eauto.
  Qed.

  (** what a single event of the visit at [p] can be *)
  Inductive explained : oevent -> Prop :=
  | ex_enter p t al n args ds sub fd : selected S d o p t (SField al n args ds sub) -> simple p -> has_field t n fd ->
      explained (OEnter al n args ds sub fd t (all_included (StField ds :: p)))
  | ex_leave b : explained (OLeave b)
  | ex_arg p t al n args ds sub fd a i :
      selected S d o p t (SField al n args ds sub) -> simple p -> has_field t n fd -> In a args ->
      get_ivd (fd_args fd) (fst a) = Some i -> explained (OArg a i)
  | ex_dir p t s x dd a i :
      selected S d o p t s -> simple p ->
      (forall al n args ds sub, s = SField al n args ds sub -> exists fd, has_field t n fd) ->
      In x (sel_dirs s) -> get_ddef S (dir_name x) = Some dd -> In a (dir_args x) -> get_ivd (dd_args dd) (fst a) = Some i ->
      explained (OArg a i).

  Lemma visit_explained p t sels : reaches S d o p t sels -> simple p -> forall ev, In ev (visit_at p t sels) -> explained ev.
  Proof.
    revert p t sels. refine (reach_ind (fun p t sels => forall ev, In ev (visit_at p t sels) -> explained ev) _).
    intros p t sels H Hs IH ev Hev. rewrite visit_at_unfold in Hev by auto. apply in_flat_map in Hev as (s & Hin & Hev).
    assert (Hsel : selected S d o p t s) by (exists sels; auto).
    destruct s as [al n args ds sub|n ds|c ds sub]; cbn [visit_sel] in Hev.
    - destruct (get_field (td_fields t) n) as [fd|] eqn:Ef; [|destruct Hev].
      apply in_app_or in Hev as [Hev|Hev].
      { apply in_odirectives in Hev as (x & dd & a & i & -> & Hx & Ed & Ha & Ei).
        eapply ex_dir; eauto. intros ? ? ? ? ? [= <- <- <- <- <-]. exists fd. exact Ef. }
      destruct Hev as [<-|Hev]; [eapply ex_enter; eauto|].
      apply in_app_or in Hev as [Hev|Hev].
      { apply in_oargs in Hev as (a & i & -> & Ha & Ei). eapply ex_arg; eauto. }
      apply in_app_or in Hev as [Hev|[<-|[]]]; [|constructor].
      destruct sub as [|s0 sub]; [destruct Hev|].
      destruct (get_type S (tref_base (fd_type fd))) as [t'|] eqn:Et; [|destruct Hev].
      eapply IH; [| | |exact Hev].
      + eapply r_field; eauto. discriminate.
      + exact Hs.
      + eapply sub_size_field; eauto.
    - apply in_app_or in Hev as [Hev|Hev].
      { apply in_odirectives in Hev as (x & dd & a & i & -> & Hx & Ed & Ha & Ei). eapply ex_dir; eauto. intros; discriminate. }
      destruct (tmem n (path_fragments p)) eqn:E; [destruct Hev|]. destruct (cached_fragment d n) as [f|] eqn:Ef; [|destruct Hev].
      destruct (get_type S (fr_cond f)) as [t'|] eqn:Et; [|destruct Hev].
      apply tmem_false in E. apply cached_defines in Ef.
      eapply (IH (StSpread n ds)); [| |exact I|exact Hev].
      + eapply r_spread; eauto.
      + unfold simple; cbn. constructor; auto.
    - apply in_app_or in Hev as [Hev|Hev].
      { apply in_odirectives in Hev as (x & dd & a & i & -> & Hx & Ed & Ha & Ei). eapply ex_dir; eauto. intros; discriminate. }
      destruct c as [c|].
      + destruct (get_type S c) as [t'|] eqn:Et; [|destruct Hev].
        eapply IH; [| | |exact Hev]; auto; [eapply r_inline_on; eauto|eapply sub_size_inline; eauto].
      + eapply IH; [| | |exact Hev]; auto; [eapply r_inline; eauto|eapply sub_size_inline; eauto].
  Qed.

  (** conversely, the visit at a simple path is part of the whole visit *)
  Lemma visit_part t0 p t sels : root_type S (op_type o) t0 ->
    reaches S d o p t sels -> simple p -> incl (visit_at p t sels) (visit_at [] t0 (op_sel o)).
  Proof.
    intros H0. induction 1 as [t Hr|p t sels al n args ds sub fd t1 H IH Hin Hf Hne Ht|p t sels ds sub H IH Hin
      |p t sels c ds sub t1 H IH Hin Ht|p t sels n ds f t1 H IH Hin Hd Ht]; intros Hs.
    - assert (t = t0) as ->; [|intros x; auto].
      unfold root_type in *. destruct (op_type o); [congruence| |]; destruct Hr as (a & Ea & Eb), H0 as (a' & Ea' & Eb'); congruence.
    - intros ev Hev. apply IH; auto. rewrite (visit_at_unfold p) by auto. apply in_flat_map. eexists; split; [exact Hin|].
      cbn [visit_sel]. rewrite Hf. apply in_or_app; right. right. apply in_or_app; right. apply in_or_app; left.
      destruct sub as [|s0 sub]; [congruence|]. rewrite Ht. exact Hev.
    - intros ev Hev. apply IH; auto. rewrite (visit_at_unfold p) by auto. apply in_flat_map. eexists; split; [exact Hin|].
      cbn [visit_sel]. apply in_or_app; right. exact Hev.
    - intros ev Hev. apply IH; auto. rewrite (visit_at_unfold p) by auto. apply in_flat_map. eexists; split; [exact Hin|].
      cbn [visit_sel]. rewrite Ht. apply in_or_app; right. exact Hev.
    - unfold simple in Hs; cbn in Hs. inversion Hs; subst.
      intros ev Hev. apply IH; auto. rewrite (visit_at_unfold p) by auto. apply in_flat_map. eexists; split; [exact Hin|].
      cbn [visit_sel]. apply in_or_app; right. rewrite (proj2 (tmem_false _ _)) by auto.
      rewrite (proj2 (cached_defines _ _) Hd), Ht. exact Hev.
  Qed.

  Lemma op_root_type ty t : root_type S ty t <-> exists n, op_root_name S ty = Some n /\ get_type S n = Some t.
  Proof.
    unfold root_type, op_root_name. destruct ty; split.
    - intros H. eauto.
    - intros (n & [= <-] & H); auto.
    - intros H; exact H.
    - intros H; exact H.
    - intros H; exact H.
    - intros H; exact H.
  Qed.

  (** ** the whole visit *)
  Lemma reaches_root p t sels : reaches S d o p t sels -> exists t0, root_type S (op_type o) t0.
  Proof. induction 1; eauto. Qed.
  Lemma ovisit_operation_root t0 : root_type S (op_type o) t0 ->
    ovisit_operation S d o vals = odirectives S (op_dirs o) ++ visit_at [] t0 (op_sel o) ++ map OVarDef (op_vars o).
  Proof.
    intros H. apply op_root_type in H as (n & E1 & E2). unfold ovisit_operation. rewrite E1, E2.
    unfold visit_at, fuel_at. cbn. rewrite Nat.sub_0_r. reflexivity.
  Qed.
  Lemma ovisit_operation_noroot : (forall t0, ~ root_type S (op_type o) t0) ->
    ovisit_operation S d o vals = odirectives S (op_dirs o) ++ map OVarDef (op_vars o) \/
    ovisit_operation S d o vals = odirectives S (op_dirs o) ++ [OPanic] ++ map OVarDef (op_vars o).
  Proof.
    intros H. unfold ovisit_operation. destruct (op_root_name S (op_type o)) as [n|] eqn:E1; auto.
    destruct (get_type S n) as [t|] eqn:E2; auto. exfalso. eapply (H t). apply op_root_type. eauto.
  Qed.

  Definition root_resolves : Prop := forall n, op_root_name S (op_type o) = Some n -> exists t, get_type S n = Some t.

  Lemma enter_iff al n args ds sub fd t b :
    In (OEnter al n args ds sub fd t b) (ovisit_operation S d o vals) <->
    exists p, selected S d o p t (SField al n args ds sub) /\ simple p /\ has_field t n fd /\ b = all_included (StField ds :: p).
  Proof.
    split.
    - intros Hev.
      assert (Hroot : (exists t0, root_type S (op_type o) t0) \/ forall t0, ~ root_type S (op_type o) t0).
      { destruct (op_root_name S (op_type o)) as [m|] eqn:E1; [destruct (get_type S m) as [t0|] eqn:E2|].
        - left. exists t0. apply op_root_type. eauto.
        - right. intros t0 H. apply op_root_type in H as (k & ? & ?). congruence.
        - right. intros t0 H. apply op_root_type in H as (k & ? & ?). congruence. }
      destruct Hroot as [(t0 & H0)|Hno].
      + rewrite (ovisit_operation_root _ H0) in Hev.
        apply in_app_or in Hev as [Hev|Hev]; [apply in_odirectives in Hev as (? & ? & ? & ? & ? & _); discriminate|].
        apply in_app_or in Hev as [Hev|Hev]; [|apply in_map_iff in Hev as (? & ? & _); discriminate].
        apply visit_explained in Hev; [|constructor; auto|constructor].
        inversion Hev; subst. eauto.
      + exfalso. destruct (ovisit_operation_noroot Hno) as [E|E]; rewrite E in Hev;
          (apply in_app_or in Hev as [Hev|Hev]; [apply in_odirectives in Hev as (? & ? & ? & ? & ? & _); discriminate|]).
        * apply in_map_iff in Hev as (? & ? & _); discriminate.
        * destruct Hev as [Hev|Hev]; [discriminate|]. apply in_map_iff in Hev as (? & ? & _); discriminate.
    - intros (p & (sels & H & Hin) & Hs & Hf & ->).
      destruct (reaches_root _ _ _ H) as (t0 & H0). rewrite (ovisit_operation_root _ H0).
      apply in_or_app; right. apply in_or_app; left. eapply visit_part; eauto.
      rewrite visit_at_unfold by auto. apply in_flat_map. eexists; split; [exact Hin|]. cbn [visit_sel]. rewrite Hf.
      apply in_or_app; right. left. reflexivity.
  Qed.

  Lemma arg_iff a i :
    In (OArg a i) (ovisit_operation S d o vals) <->
    (exists x dd, In x (op_dirs o) /\ get_ddef S (dir_name x) = Some dd /\ In a (dir_args x) /\ get_ivd (dd_args dd) (fst a) = Some i) \/
    (exists p t al n args ds sub fd, selected S d o p t (SField al n args ds sub) /\ simple p /\ has_field t n fd /\ In a args /\
       get_ivd (fd_args fd) (fst a) = Some i) \/
    (exists p t s x dd, selected S d o p t s /\ simple p /\
       (forall al n args ds sub, s = SField al n args ds sub -> exists fd, has_field t n fd) /\
       In x (sel_dirs s) /\ get_ddef S (dir_name x) = Some dd /\ In a (dir_args x) /\ get_ivd (dd_args dd) (fst a) = Some i).
  Proof.
    split.
    - intros Hev.
      assert (Hroot : (exists t0, root_type S (op_type o) t0) \/ forall t0, ~ root_type S (op_type o) t0).
      { destruct (op_root_name S (op_type o)) as [m|] eqn:E1; [destruct (get_type S m) as [t0|] eqn:E2|].
        - left. exists t0. apply op_root_type. eauto.
        - right. intros t0 H. apply op_root_type in H as (k & ? & ?). congruence.
        - right. intros t0 H. apply op_root_type in H as (k & ? & ?). congruence. }
      destruct Hroot as [(t0 & H0)|Hno].
      + rewrite (ovisit_operation_root _ H0) in Hev.
        apply in_app_or in Hev as [Hev|Hev].
        { apply in_odirectives in Hev as (x & dd & a' & i' & [= <- <-] & ?). left. exists x, dd. tauto. }
        apply in_app_or in Hev as [Hev|Hev]; [|apply in_map_iff in Hev as (? & ? & _); discriminate].
        apply visit_explained in Hev; [|constructor; auto|constructor].
        inversion Hev; subst; right; [left; do 8 eexists|right; do 5 eexists]; repeat (split; [eassumption|]); eassumption.
      + left. destruct (ovisit_operation_noroot Hno) as [E|E]; rewrite E in Hev;
          (apply in_app_or in Hev as [Hev|Hev]; [apply in_odirectives in Hev as (x & dd & a' & i' & [= <- <-] & ?); exists x, dd; tauto|exfalso]).
        * apply in_map_iff in Hev as (? & ? & _); discriminate.
        * destruct Hev as [Hev|Hev]; [discriminate|]. apply in_map_iff in Hev as (? & ? & _); discriminate.
    - intros [(x & dd & Hx & Ed & Ha & Ei)|[(p & t & al & n & args & ds & sub & fd & (sels & H & Hin) & Hs & Hf & Ha & Ei)
        |(p & t & s & x & dd & (sels & H & Hin) & Hs & Hsf & Hx & Ed & Ha & Ei)]].
      + assert (In (OArg a i) (odirectives S (op_dirs o))) by (apply in_odirectives; eauto 10).
        unfold ovisit_operation. apply in_or_app; left; auto.
      + destruct (reaches_root _ _ _ H) as (t0 & H0). rewrite (ovisit_operation_root _ H0).
        apply in_or_app; right. apply in_or_app; left. eapply visit_part; eauto.
        rewrite visit_at_unfold by auto. apply in_flat_map. eexists; split; [exact Hin|]. cbn [visit_sel]. rewrite Hf.
        apply in_or_app; right. right. apply in_or_app; left. apply in_oargs. eauto.
      + destruct (reaches_root _ _ _ H) as (t0 & H0). rewrite (ovisit_operation_root _ H0).
        apply in_or_app; right. apply in_or_app; left. eapply visit_part; eauto.
        rewrite visit_at_unfold by auto. apply in_flat_map. eexists; split; [exact Hin|].
        assert (G : In (OArg a i) (odirectives S (sel_dirs s))) by (apply in_odirectives; eauto 10).
        destruct s; cbn [visit_sel sel_dirs] in *.
        * destruct (Hsf _ _ _ _ _ eq_refl) as (fd & Hf). rewrite Hf. apply in_or_app; left; auto.
        * apply in_or_app; left; auto.
        * apply in_or_app; left; auto.
  Qed.

  Lemma vardef_iff v : In (OVarDef v) (ovisit_operation S d o vals) <-> In v (op_vars o).
  Proof.
    split.
    - intros Hev. unfold ovisit_operation in Hev.
      apply in_app_or in Hev as [Hev|Hev]; [apply in_odirectives in Hev as (? & ? & ? & ? & ? & _); discriminate|].
      apply in_app_or in Hev as [Hev|Hev]; [|apply in_map_iff in Hev as (? & [= ->] & ?); auto].
      exfalso. destruct (op_root_name S (op_type o)) as [m|] eqn:E1; [|destruct Hev].
      destruct (get_type S m) as [t0|] eqn:E2; [|destruct Hev as [Hev|[]]; discriminate].
      assert (H0 : root_type S (op_type o) t0) by (apply op_root_type; eauto).
      assert (Hev' : In (OVarDef v) (visit_at [] t0 (op_sel o))).
      { unfold visit_at, fuel_at. cbn. rewrite Nat.sub_0_r. exact Hev. }
      apply visit_explained in Hev'; [|constructor; auto|constructor]. inversion Hev'.
    - intros H. unfold ovisit_operation. apply in_or_app; right. apply in_or_app; right. apply in_map; auto.
  Qed.
  Lemma no_fuel : ~ In OFuel (ovisit_operation S d o vals).
  Proof.
    intros Hev. unfold ovisit_operation in Hev.
    apply in_app_or in Hev as [Hev|Hev]; [apply in_odirectives in Hev as (? & ? & ? & ? & ? & _); discriminate|].
    apply in_app_or in Hev as [Hev|Hev]; [|apply in_map_iff in Hev as (? & ? & _); discriminate].
    destruct (op_root_name S (op_type o)) as [m|] eqn:E1; [|destruct Hev].
    destruct (get_type S m) as [t0|] eqn:E2; [|destruct Hev as [Hev|[]]; discriminate].
    assert (H0 : root_type S (op_type o) t0) by (apply op_root_type; eauto).
    assert (Hev' : In OFuel (visit_at [] t0 (op_sel o))).
    { unfold visit_at, fuel_at. cbn. rewrite Nat.sub_0_r. exact Hev. }
    apply visit_explained in Hev'; [|constructor; auto|constructor]. inversion Hev'.
  Qed.
  Lemma no_panic : root_resolves -> ~ In OPanic (ovisit_operation S d o vals).
  Proof.
    intros R Hev. unfold ovisit_operation in Hev.
    apply in_app_or in Hev as [Hev|Hev]; [apply in_odirectives in Hev as (? & ? & ? & ? & ? & _); discriminate|].
    apply in_app_or in Hev as [Hev|Hev]; [|apply in_map_iff in Hev as (? & ? & _); discriminate].
    destruct (op_root_name S (op_type o)) as [m|] eqn:E1; [|destruct Hev].
    destruct (R _ E1) as (t0 & E2). rewrite E2 in Hev.
    assert (H0 : root_type S (op_type o) t0) by (apply op_root_type; eauto).
    assert (Hev' : In OPanic (visit_at [] t0 (op_sel o))).
    { unfold visit_at, fuel_at. cbn. rewrite Nat.sub_0_r. exact Hev. }
    apply visit_explained in Hev'; [|constructor; auto|constructor]. inversion Hev'.
  Qed.

  (** ** every path can be shortened to a simple one that takes a subset of its steps *)
  Lemma cut_path n p t sels : reaches S d o p t sels -> simple p -> In n (path_fragments p) ->
    exists ds p' f t1, defines d n f /\ get_type S (fr_cond f) = Some t1 /\ reaches S d o (StSpread n ds :: p') t1 (fr_sel f) /\
      simple (StSpread n ds :: p') /\ incl (StSpread n ds :: p') p.
  Proof.
    induction 1 as [t Hr|p t sels al n' args ds sub fd t1 H IH Hin Hf Hne Ht|p t sels ds sub H IH Hin
      |p t sels c ds sub t1 H IH Hin Ht|p t sels n' ds f t1 H IH Hin Hd Ht]; cbn [path_fragments]; intros Hs Hn.
    - destruct Hn.
    - destruct (IH Hs Hn) as (ds' & p' & f' & t' & A & B & C & D & E). exists ds', p', f', t'. split; auto. split; auto. split; auto. split; auto.
      intros x Hx; right; auto.
    - destruct (IH Hs Hn) as (ds' & p' & f' & t' & A & B & C & D & E). exists ds', p', f', t'. split; auto. split; auto. split; auto. split; auto.
      intros x Hx; right; auto.
    - destruct (IH Hs Hn) as (ds' & p' & f' & t' & A & B & C & D & E). exists ds', p', f', t'. split; auto. split; auto. split; auto. split; auto.
      intros x Hx; right; auto.
    - destruct (text_dec n' n) as [->|Hneq].
      + exists ds, p, f, t1. split; auto. split; auto. split; [eapply r_spread; eauto|]. split; auto. intros x Hx; auto.
      + unfold simple in Hs; cbn in Hs. inversion Hs; subst. destruct Hn as [Hn|Hn]; [contradiction|].
        destruct IH as (ds' & p' & f' & t' & A & B & C & D & E); auto. exists ds', p', f', t'. split; auto. split; auto. split; auto. split; auto.
        intros x Hx; right; auto.
  Qed.
  Lemma shorten p t sels : reaches S d o p t sels ->
    exists p', reaches S d o p' t sels /\ simple p' /\ incl p' p.
  Proof.
    induction 1 as [t Hr|p t sels al n args ds sub fd t1 H IH Hin Hf Hne Ht|p t sels ds sub H IH Hin
      |p t sels c ds sub t1 H IH Hin Ht|p t sels n ds f t1 H IH Hin Hd Ht].
    - exists []. split; [constructor; auto|]. split; [constructor|intros x; auto].
    - destruct IH as (p' & A & B & C). exists (StField ds :: p'). split; [eapply r_field; eauto|]. split; auto.
      intros x [<-|Hx]; [left|right]; auto.
    - destruct IH as (p' & A & B & C). exists (StInline ds :: p'). split; [eapply r_inline; eauto|]. split; auto.
      intros x [<-|Hx]; [left|right]; auto.
    - destruct IH as (p' & A & B & C). exists (StInline ds :: p'). split; [eapply r_inline_on; eauto|]. split; auto.
      intros x [<-|Hx]; [left|right]; auto.
    - destruct IH as (p' & A & B & C). destruct (in_dec text_dec n (path_fragments p')) as [Hn|Hn].
      + destruct (cut_path _ _ _ _ A B Hn) as (ds' & p'' & f' & t' & D & E & F & G & I).
        assert (f' = f) as -> by (eapply defines_fun; eauto). assert (t' = t1) as -> by congruence.
        exists (StSpread n ds' :: p''). split; auto. split; auto. intros x Hx. right. apply C, I; auto.
      + exists (StSpread n ds :: p'). split; [eapply r_spread; eauto|]. split; [unfold simple; cbn; constructor; auto|].
        intros x [<-|Hx]; [left|right]; auto.
  Qed.

  (** ** acyclic fragments: every path is simple *)
  Lemma within_spreads m p t sels : reaches S d o p t sels -> spreads m sels ->
    forall n, In n (path_fragments p) -> plus (fragment_uses d) n m.
  Proof.
    intros H. revert m. induction H as [t Hr|p t sels al n args ds sub fd t1 H IH Hin Hf Hne Ht|p t sels ds sub H IH Hin
      |p t sels c ds sub t1 H IH Hin Ht|p t sels n ds f t1 H IH Hin Hd Ht]; intros m (s & Hs & Hsp); cbn [path_fragments].
    - intros n [].
    - apply IH. eexists; split; [exact Hin|]. econstructor; eauto.
    - apply IH. eexists; split; [exact Hin|]. econstructor; eauto.
    - apply IH. eexists; split; [exact Hin|]. econstructor; eauto.
    - assert (U : fragment_uses d n m) by (exists f; split; auto; exists s; auto).
      intros k [->|Hk]; [apply plus_one; auto|]. eapply plus_snoc; [|exact U].
      apply IH; auto. eexists; split; [exact Hin|]. constructor.
  Qed.
  Lemma acyclic_simple p t sels : (forall n, ~ on_a_cycle d n) -> reaches S d o p t sels -> simple p.
  Proof.
    intros Hac. induction 1 as [t Hr|p t sels al n args ds sub fd t1 H IH Hin Hf Hne Ht|p t sels ds sub H IH Hin
      |p t sels c ds sub t1 H IH Hin Ht|p t sels n ds f t1 H IH Hin Hd Ht]; auto; [constructor|].
    unfold simple; cbn. constructor; auto. intros Hn. apply (Hac n). eapply within_spreads; eauto.
    eexists; split; [exact Hin|]. constructor.
  Qed.

  (** ** conditions *)
  Lemma NoDup_find {A} (g : A -> name) l x n : NoDup (map g l) -> In x l -> g x = n -> find (fun y => teqb (g y) n) l = Some x.
  Proof.
    induction l as [|y l IH]; [intros _ []|]. cbn. intros Hnd [->|Hin] E.
    - rewrite E, teqb_refl. reflexivity.
    - inversion Hnd; subst. destruct (teqb_spec (g y) (g x)) as [Ey|]; auto.
      exfalso. apply H1. rewrite Ey. apply in_map; auto.
  Qed.
  Lemma evaluate_bool_iff x b : NoDup (map vd_name (op_vars o)) -> NoDup (map fst vals) ->
    evaluate_bool o vals x = Some b <-> condition o vals (VVar x) b.
  Proof.
    intros Hv Hk. unfold evaluate_bool. split.
    - destruct (find _ (op_vars o)) as [v|] eqn:E; [|discriminate]. apply find_some in E as (Hin & E).
      apply andb_true_iff in E as (E1 & E2). apply teqb_eq in E1.
      assert (Et : exists r, vd_type v = TBase (tx "Boolean") r).
      { unfold is_named in E2. destruct (vd_type v) as [n r|]; [|discriminate]. apply teqb_eq in E2 as ->. eauto. }
      destruct Et as (r & Et). destruct (assoc x vals) as [w|] eqn:Ea.
      + apply assoc_In in Ea. unfold as_bool. destruct w; try discriminate. intros [= ->]. eapply cond_provided; eauto.
      + apply assoc_None in Ea. destruct (vd_default v) as [w|] eqn:Ed; [|discriminate].
        unfold as_bool. destruct w; try discriminate. intros [= ->]. eapply cond_default; eauto.
    - intros H.
      assert (F : forall v r, In v (op_vars o) -> vd_name v = x -> vd_type v = TBase (tx "Boolean") r ->
                find (fun v => teqb (vd_name v) x && is_named (tx "Boolean") (vd_type v)) (op_vars o) = Some v).
      { intros v r Hin En Et. clear H. induction (op_vars o) as [|y l IH]; [destruct Hin|]. cbn. inversion Hv; subst.
        destruct Hin as [->|Hin].
        - rewrite teqb_refl, Et. unfold is_named. rewrite teqb_refl. reflexivity.
        - destruct (teqb_spec (vd_name y) (vd_name v)) as [Ey|]; [|apply IH; auto].
          exfalso. apply H1. rewrite Ey. apply in_map; auto. }
      inversion H; subst;
        (match goal with A : In ?v (op_vars o), B : vd_type ?v = _ |- _ => rewrite (F _ _ A eq_refl B) end).
      + rewrite (assoc_NoDup (vd_name v) vals (VBool b)); auto.
      + match goal with A : ~ In _ _, B : vd_default _ = _ |- _ => rewrite (proj2 (assoc_None _ _) A), B end. reflexivity.
  Qed.
  Lemma find_once (ds : list directive) n x : In x ds -> dir_name x = n ->
    (forall i j x y, nth_error ds i = Some x -> nth_error ds j = Some y -> dir_name x = n -> dir_name y = n -> i = j) ->
    find (fun y => teqb (dir_name y) n) ds = Some x.
  Proof.
    intros Hx En Hu. destruct (find _ ds) as [y|] eqn:E.
    - apply find_some in E as (Hy & E). apply teqb_eq in E. apply In_nth_error in Hx as (i & Hi). apply In_nth_error in Hy as (j & Hj).
      assert (i = j) by (eapply Hu; eauto). congruence.
    - apply (find_none _ _ E) in Hx. cbn beta in Hx. rewrite En, teqb_refl in Hx. discriminate.
  Qed.
  Lemma directive_bool_iff ds dn b : NoDup (map vd_name (op_vars o)) -> NoDup (map fst vals) ->
    (forall i j x y, nth_error ds i = Some x -> nth_error ds j = Some y -> dir_name x = dn -> dir_name y = dn -> i = j) ->
    (forall x, In x ds -> dir_name x = dn -> NoDup (map fst (dir_args x))) ->
    directive_bool o vals ds dn (tx "if") = Some b <->
    exists x c, In x ds /\ dir_name x = dn /\ In (tx "if", c) (dir_args x) /\ condition o vals c b.
  Proof.
    intros Hv Hk Hd Ha. unfold directive_bool. split.
    - destruct (find _ ds) as [x|] eqn:E; [|discriminate]. apply find_some in E as (Hx & E). apply teqb_eq in E.
      match goal with |- context [find ?g (dir_args x)] => destruct (find g (dir_args x)) as [[k c]|] eqn:E1 end; [|discriminate]. apply find_some in E1 as (Hc & E1). apply teqb_eq in E1.
      unfold fst in E1. subst k.
      intros H. exists x, c. split; auto. split; auto. split; auto.
      unfold snd in H. destruct c; try discriminate.
      + apply evaluate_bool_iff; auto.
      + injection H as ->. constructor.
    - intros (x & c & Hx & En & Hc & H). rewrite (find_once ds dn x Hx En Hd).
      rewrite (NoDup_find fst (dir_args x) (tx "if", c)); auto. unfold snd.
      inversion H; subst; auto; apply evaluate_bool_iff; auto.
  Qed.
  Lemma included_iff ds : NoDup (map vd_name (op_vars o)) -> NoDup (map fst vals) ->
    conditions_once ds ->
    incl_ ds = true <-> ~ excluded o vals ds.
  Proof.
    intros Hv Hk Hd. unfold selection_included.
    destruct (Hd (tx "skip") (or_introl eq_refl)) as (Hs1 & Hs2). destruct (Hd (tx "include") (or_intror eq_refl)) as (Hi1 & Hi2).
    assert (Hskip := directive_bool_iff ds (tx "skip") true Hv Hk Hs1 Hs2).
    assert (Hinc := directive_bool_iff ds (tx "include") false Hv Hk Hi1 Hi2).
    assert (E : excluded o vals ds <-> directive_bool o vals ds (tx "skip") (tx "if") = Some true \/
                                       directive_bool o vals ds (tx "include") (tx "if") = Some false).
    { rewrite Hskip, Hinc. unfold excluded. split.
      - intros (x & c & Hx & Hc & [(En & C)|(En & C)]); [left|right]; eauto 8.
      - intros [(x & c & Hx & En & Hc & C)|(x & c & Hx & En & Hc & C)]; exists x, c; auto. }
    rewrite E. clear. destruct (directive_bool o vals ds (tx "skip") (tx "if")) as [[]|];
      destruct (directive_bool o vals ds (tx "include") (tx "if")) as [[]|]; split; intros; try reflexivity; try discriminate;
      try (intros [?|?]; discriminate); exfalso; auto.
  Qed.

  (** the steps of a path carry the directives of selected selections *)
  Lemma step_selected p t sels : reaches S d o p t sels -> forall st, In st p ->
    exists p' t' s, selected S d o p' t' s /\ sel_dirs s = step_dirs st.
  Proof.
    induction 1 as [t Hr|p t sels al n args ds sub fd t1 H IH Hin Hf Hne Ht|p t sels ds sub H IH Hin
      |p t sels c ds sub t1 H IH Hin Ht|p t sels n ds f t1 H IH Hin Hd Ht]; intros st; [intros []| | | |];
      (intros [<-|Hst]; [|auto]); exists p, t; eexists; (split; [exists sels; split; [exact H|exact Hin]|reflexivity]).
  Qed.
  Lemma all_included_iff p t s : unique_conditions S d o vals -> selected S d o p t s ->
    forallb (fun ds => incl_ ds) (sel_dirs s :: map step_dirs p) = true <-> path_included o vals (sel_dirs s) p.
  Proof.
    intros (Hv & Hk & Hu) Hsel. assert (Hsel' := Hsel). destruct Hsel as (sels & H & Hin).
    cbn [forallb]. rewrite andb_true_iff, forallb_forall. unfold path_included.
    rewrite (included_iff _ Hv Hk (Hu _ _ _ Hsel')).
    split; intros (A & B); split; auto.
    - intros st Hst. destruct (step_selected _ _ _ H _ Hst) as (p' & t' & s' & Hs' & E).
      pose proof (Hu _ _ _ Hs') as Hd'. rewrite E in *. apply (included_iff _ Hv Hk Hd').
      apply B. apply in_map. auto.
    - intros ds Hds. apply in_map_iff in Hds as (st & <- & Hst). destruct (step_selected _ _ _ H _ Hst) as (p' & t' & s' & Hs' & E).
      pose proof (Hu _ _ _ Hs') as Hd'. rewrite E in *. apply (included_iff _ Hv Hk Hd'). apply B; auto.
  Qed.
  Lemma all_included_map p : all_included p = forallb (fun ds => incl_ ds) (map step_dirs p).
  Proof. induction p as [|x p IH]; cbn; auto. unfold all_included in IH. rewrite IH. reflexivity. Qed.

  (** ** depth *)
  Definition dfold := fold_left depth_step.
  Lemma dfold_app a b st : dfold (a ++ b) st = dfold b (dfold a st).
  Proof. apply fold_left_app. Qed.
  Lemma dfold_args evs st : (forall ev, In ev evs -> exists a i, ev = OArg a i) -> dfold evs st = st.
  Proof.
    revert st. induction evs as [|e l IH]; intros st H; auto. unfold dfold in *. cbn.
    destruct (H e (or_introl eq_refl)) as (a & i & ->). destruct st as [c m]. cbn. apply IH. intros; apply H; right; auto.
  Qed.
  Lemma dfold_oargs args defs st : dfold (oargs args defs) st = st.
  Proof. apply dfold_args. intros ev H. apply in_oargs in H as (a & i & -> & _). eauto. Qed.
  Lemma dfold_odirectives ds st : dfold (odirectives S ds) st = st.
  Proof. apply dfold_args. intros ev H. apply in_odirectives in H as (x & dd & a & i & -> & _). eauto. Qed.

  (** an included field at [p] *)
  Definition depth_at (k : nat) : Prop :=
    exists p t al n args ds sub fd, selected S d o p t (SField al n args ds sub) /\ simple p /\ has_field t n fd /\
      all_included (StField ds :: p) = true /\ k = 1 + path_fields p.
  Definition cur_of (p : list step) : nat := if all_included p then path_fields p else 0.

  (** what a visit does to (current, max): [current] is restored, [max] grows to the depth of an included field *)
  Definition good (c : nat) (evs : list oevent) : Prop :=
    forall m, c <= m -> exists m', dfold evs (c, m) = (c, m') /\ m <= m' /\ (m' = m \/ depth_at m').
  Lemma good_app c a b : good c a -> good c b -> good c (a ++ b).
  Proof.
    intros A B m Hm. destruct (A m Hm) as (m1 & E1 & L1 & D1). destruct (B m1) as (m2 & E2 & L2 & D2); [lia|].
    exists m2. rewrite dfold_app, E1. split; auto. split; [lia|]. destruct D2 as [->|]; auto.
  Qed.
  Lemma good_flat c f (l : list selection) : (forall s, In s l -> good c (f s)) -> good c (flat_map f l).
  Proof.
    induction l as [|x l IH]; cbn; intros H.
    - intros m Hm. exists m. split; auto.
    - apply good_app; [apply H; left; auto|apply IH; intros; apply H; right; auto].
  Qed.
  Lemma good_nil c : good c [].
  Proof. intros m Hm. exists m. split; auto. Qed.
  Lemma good_neutral c evs : (forall st, dfold evs st = st) -> good c evs.
  Proof. intros H m Hm. exists m. rewrite H. split; auto. Qed.

  (** excluded part: nothing happens *)
  Lemma dfold_excluded p t sels : reaches S d o p t sels -> simple p ->
    all_included p = false -> forall st, dfold (visit_at p t sels) st = st.
  Proof.
    revert p t sels. refine (reach_ind (fun p t sels => all_included p = false -> forall st, dfold (visit_at p t sels) st = st) _).
    intros p t sels H Hs IH Hx.
    assert (Hx' : forall st, all_included (st :: p) = false).
    { intros st. unfold all_included in *. cbn [forallb]. rewrite Hx. apply andb_false_r. }
    rewrite visit_at_unfold by auto.
    assert (G : forall s, In s sels -> forall st, dfold (visit_sel p t s) st = st).
    2:{ clear IH H. induction sels as [|x l IHl]; cbn; auto. intros st. rewrite dfold_app, G by (left; auto). apply IHl. intros; apply G; right; auto. }
    intros s Hin st. destruct s as [al n args ds sub|n ds|c ds sub]; cbn [visit_sel].
    - destruct (get_field (td_fields t) n) as [fd|] eqn:Ef; auto.
      rewrite Hx', dfold_app, dfold_odirectives. change (OEnter al n args ds sub fd t false :: ?l) with ([OEnter al n args ds sub fd t false] ++ l).
      rewrite dfold_app. replace (dfold [OEnter al n args ds sub fd t false] st) with st by (destruct st; reflexivity).
      rewrite dfold_app, dfold_oargs, dfold_app.
      assert (E : dfold (match sub with [] => [] | _ :: _ => match get_type S (tref_base (fd_type fd)) with Some t' => visit_at (StField ds :: p) t' sub | None => [] end end) st = st).
      { destruct sub as [|s0 sub]; auto. destruct (get_type S (tref_base (fd_type fd))) as [t'|] eqn:Et; auto. apply IH; auto.
        - eapply r_field; eauto. discriminate.
        - eapply sub_size_field; eauto. }
      rewrite E. destruct st; reflexivity.
    - rewrite dfold_app, dfold_odirectives. destruct (tmem n (path_fragments p)) eqn:E; auto.
      destruct (cached_fragment d n) as [f|] eqn:Ef; auto. destruct (get_type S (fr_cond f)) as [t'|] eqn:Et; auto.
      apply tmem_false in E. apply cached_defines in Ef. apply IH; auto.
      + eapply r_spread; eauto.
      + unfold simple; cbn. constructor; auto.
    - rewrite dfold_app, dfold_odirectives. destruct c as [c|].
      + destruct (get_type S c) as [t'|] eqn:Et; auto. apply IH; auto; [eapply r_inline_on; eauto|eapply sub_size_inline; eauto].
      + apply IH; auto; [eapply r_inline; eauto|eapply sub_size_inline; eauto].
  Qed.

  Lemma sel_good p t sels : reaches S d o p t sels -> simple p -> all_included p = true ->
    (forall st t' sels', reaches S d o (st :: p) t' sels' -> simple (st :: p) ->
       (match st with StSpread _ _ => True | _ => sels_size sels' < sels_size sels end) ->
       all_included (st :: p) = true -> good (path_fields (st :: p)) (visit_at (st :: p) t' sels')) ->
    forall s, In s sels -> good (path_fields p) (visit_sel p t s).
  Proof.
    intros H Hs Hx IH.
    assert (Sub : forall st t' sels', reaches S d o (st :: p) t' sels' -> simple (st :: p) ->
        (match st with StSpread _ _ => True | _ => sels_size sels' < sels_size sels end) ->
        path_fields (st :: p) = path_fields p -> good (path_fields p) (visit_at (st :: p) t' sels')).
    { intros st t' sels' H' Hs' Hm Hc. destruct (all_included (st :: p)) eqn:Ex.
      - rewrite <- Hc. apply IH; auto.
      - apply good_neutral. eapply dfold_excluded; eauto. }
    intros s Hin. destruct s as [al n args ds sub|n ds|c ds sub]; cbn [visit_sel].
    - destruct (get_field (td_fields t) n) as [fd|] eqn:Ef; [|apply good_nil].
      apply good_app; [apply good_neutral; apply dfold_odirectives|].
      destruct (all_included (StField ds :: p)) eqn:Ex.
      + intros m Hm.
        change (OEnter al n args ds sub fd t true :: ?l) with ([OEnter al n args ds sub fd t true] ++ l).
        rewrite dfold_app. cbn [dfold fold_left depth_step].
        change (fold_left depth_step) with dfold. rewrite dfold_app, dfold_oargs, dfold_app.
        assert (D : depth_at (path_fields p + 1)).
        { exists p, t, al, n, args, ds, sub, fd. split; [exists sels; auto|]. split; auto. split; auto. split; auto. lia. }
        assert (G : good (path_fields p + 1)
          (match sub with [] => [] | _ :: _ => match get_type S (tref_base (fd_type fd)) with Some t' => visit_at (StField ds :: p) t' sub | None => [] end end)).
        { destruct sub as [|s0 sub]; [apply good_nil|]. destruct (get_type S (tref_base (fd_type fd))) as [t'|] eqn:Et; [|apply good_nil].
          replace (path_fields p + 1) with (path_fields (StField ds :: p)) by (cbn; lia). apply IH; auto.
          - eapply r_field; eauto. discriminate.
          - eapply sub_size_field; eauto. }
        destruct (G (Nat.max m (path_fields p + 1))) as (m' & E & L & K); [lia|].
        change (dfold ?e (path_fields p + 1, Nat.max m (path_fields p + 1))) with (dfold e (path_fields p + 1, Nat.max m (path_fields p + 1))).
        rewrite E. cbn [dfold fold_left depth_step]. exists m'. split; [f_equal; lia|]. split; [lia|].
        destruct K as [->|K]; [|auto]. destruct (Nat.max_spec m (path_fields p + 1)) as [(A & ->)|(A & ->)]; auto.
      + intros m Hm.
        change (OEnter al n args ds sub fd t false :: ?l) with ([OEnter al n args ds sub fd t false] ++ l).
        rewrite dfold_app. cbn [dfold fold_left depth_step]. change (fold_left depth_step) with dfold. rewrite dfold_app, dfold_oargs, dfold_app.
        assert (E : forall st, dfold (match sub with [] => [] | _ :: _ => match get_type S (tref_base (fd_type fd)) with Some t' => visit_at (StField ds :: p) t' sub | None => [] end end) st = st).
        { intros st. destruct sub as [|s0 sub]; auto. destruct (get_type S (tref_base (fd_type fd))) as [t'|] eqn:Et; auto.
          eapply dfold_excluded; eauto. eapply r_field; eauto. discriminate. }
        rewrite E. exists m. split; auto.
    - apply good_app; [apply good_neutral; apply dfold_odirectives|]. destruct (tmem n (path_fragments p)) eqn:E; [apply good_nil|].
      destruct (cached_fragment d n) as [f|] eqn:Ef; [|apply good_nil]. destruct (get_type S (fr_cond f)) as [t'|] eqn:Et; [|apply good_nil].
      apply tmem_false in E. apply cached_defines in Ef. apply Sub; auto.
      + eapply r_spread; eauto.
      + unfold simple; cbn. constructor; auto.
    - apply good_app; [apply good_neutral; apply dfold_odirectives|]. destruct c as [c|].
      + destruct (get_type S c) as [t'|] eqn:Et; [|apply good_nil]. apply Sub; auto; [eapply r_inline_on; eauto|eapply sub_size_inline; eauto].
      + apply Sub; auto; [eapply r_inline; eauto|eapply sub_size_inline; eauto].
  Qed.
  Lemma dfold_good p t sels : reaches S d o p t sels -> simple p -> all_included p = true -> good (path_fields p) (visit_at p t sels).
  Proof.
    revert p t sels. refine (reach_ind (fun p t sels => all_included p = true -> good (path_fields p) (visit_at p t sels)) _).
    intros p t sels H Hs IH Hx. rewrite visit_at_unfold by auto. apply good_flat. eapply sel_good; eauto.
  Qed.

  Lemma dfold_mono evs st : snd st <= snd (dfold evs st).
  Proof.
    revert st. induction evs as [|e l IH]; intros [c m]; [auto|]. unfold dfold in *. cbn [fold_left].
    etransitivity; [|apply IH]. destruct e as [| | ? ? ? ? ? ? ? [] | [] | |]; cbn; lia.
  Qed.
  Lemma dfold_lower t0 p t sels : root_type S (op_type o) t0 -> reaches S d o p t sels -> simple p -> all_included p = true ->
    exists m, path_fields p <= m /\ snd (dfold (visit_at p t sels) (path_fields p, m)) <= snd (dfold (visit_at [] t0 (op_sel o)) (0, 0)).
  Proof.
    intros H0.
    assert (Split : forall p t sels s m, reaches S d o p t sels -> simple p -> all_included p = true -> path_fields p <= m -> In s sels ->
      exists m1, m <= m1 /\ snd (dfold (visit_sel p t s) (path_fields p, m1)) <= snd (dfold (visit_at p t sels) (path_fields p, m))).
    { clear p t sels. intros p t sels s m H Hs Hx Hm Hin. rewrite visit_at_unfold by auto.
      assert (G : forall s, In s sels -> good (path_fields p) (visit_sel p t s)).
      { eapply sel_good; eauto. intros. apply dfold_good; auto. }
      destruct (in_split _ _ Hin) as (l1 & l2 & ->). rewrite flat_map_app. cbn [flat_map]. rewrite !dfold_app.
      assert (G1 : good (path_fields p) (flat_map (visit_sel p t) l1)).
      { apply good_flat. intros x Hx'. apply G. apply in_or_app; left; auto. }
      destruct (G1 m Hm) as (m1 & E & L & _). rewrite E. exists m1. split; auto. apply dfold_mono. }
    induction 1 as [t Hr|p t sels al n args ds sub fd t1 H IH Hin Hf Hne Ht|p t sels ds sub H IH Hin
      |p t sels c ds sub t1 H IH Hin Ht|p t sels n ds f t1 H IH Hin Hd Ht]; intros Hs Hx.
    - assert (t = t0) as ->.
      { unfold root_type in *. destruct (op_type o); [congruence| |]; destruct Hr as (a & Ea & Eb), H0 as (a' & Ea' & Eb'); congruence. }
      exists 0. auto.
    - assert (Hx1 : all_included p = true) by (cbn in Hx; apply andb_true_iff in Hx as (_ & ?); auto).
      destruct (IH Hs Hx1) as (m & Hm & L). destruct (Split _ _ _ _ m H Hs Hx1 Hm Hin) as (m1 & Hm1 & L1).
      cbn [visit_sel] in L1. rewrite Hf in L1. rewrite Hx in L1.
      rewrite dfold_app, dfold_odirectives in L1.
      exists (Nat.max m1 (path_fields p + 1)). split; [cbn; lia|].
      etransitivity; [|exact L]. etransitivity; [|exact L1].
      change (OEnter al n args ds sub fd t true :: ?l) with ([OEnter al n args ds sub fd t true] ++ l).
      rewrite dfold_app. cbn [dfold fold_left depth_step]. change (fold_left depth_step) with dfold. rewrite dfold_app, dfold_oargs, dfold_app.
      destruct sub as [|s0 sub]; [congruence|]. rewrite Ht.
      replace (path_fields (StField ds :: p)) with (path_fields p + 1) by (cbn; lia). apply dfold_mono.
    - assert (Hx1 : all_included p = true) by (cbn in Hx; apply andb_true_iff in Hx as (_ & ?); auto).
      destruct (IH Hs Hx1) as (m & Hm & L). destruct (Split _ _ _ _ m H Hs Hx1 Hm Hin) as (m1 & Hm1 & L1).
      cbn [visit_sel] in L1. rewrite dfold_app, dfold_odirectives in L1. exists m1. split; [cbn; lia|]. cbn [path_fields]. lia.
    - assert (Hx1 : all_included p = true) by (cbn in Hx; apply andb_true_iff in Hx as (_ & ?); auto).
      destruct (IH Hs Hx1) as (m & Hm & L). destruct (Split _ _ _ _ m H Hs Hx1 Hm Hin) as (m1 & Hm1 & L1).
      cbn [visit_sel] in L1. rewrite Ht, dfold_app, dfold_odirectives in L1. exists m1. split; [cbn; lia|]. cbn [path_fields]. lia.
    - assert (Hx1 : all_included p = true) by (cbn in Hx; apply andb_true_iff in Hx as (_ & ?); auto).
      unfold simple in Hs; cbn in Hs. inversion Hs as [|? ? Hn Hs1]; subst.
      destruct (IH Hs1 Hx1) as (m & Hm & L). destruct (Split _ _ _ _ m H Hs1 Hx1 Hm Hin) as (m1 & Hm1 & L1).
      cbn [visit_sel] in L1. rewrite dfold_app, dfold_odirectives in L1.
      rewrite (proj2 (tmem_false _ _) Hn), (proj2 (cached_defines _ _) Hd), Ht in L1.
      exists m1. split; [cbn; lia|]. cbn [path_fields]. lia.
  Qed.
  (** the depth is the greatest number of nested included fields on a simple path *)
  Lemma query_depth_spec : 
    (forall k, depth_at k -> k <= query_depth (ovisit_operation S d o vals)) /\ (query_depth (ovisit_operation S d o vals) = 0 \/ depth_at (query_depth (ovisit_operation S d o vals))).
  Proof.
    assert (V : forall st, dfold (map OVarDef (op_vars o)) st = st).
    { induction (op_vars o) as [|v l IH]; intros [c m]; [auto|]. cbn in *. apply IH. }
    split.
    - intros k (p & t & al & n & args & ds & sub & fd & (sels & H & Hin) & Hs & Hf & Hx & ->).
      destruct (reaches_root _ _ _ H) as (t0 & H0). unfold query_depth. rewrite (ovisit_operation_root _ H0).
      change (fold_left depth_step) with dfold. rewrite !dfold_app, dfold_odirectives, V.
      assert (Hx1 : all_included p = true) by (cbn in Hx; apply andb_true_iff in Hx as (_ & ?); auto).
      destruct (dfold_lower _ _ _ _ H0 H Hs Hx1) as (m & Hm & L). etransitivity; [|exact L]. clear L.
      rewrite visit_at_unfold by auto.
      assert (G : forall s, In s sels -> good (path_fields p) (visit_sel p t s)).
      { eapply sel_good; eauto. intros. apply dfold_good; auto. }
      destruct (in_split _ _ Hin) as (l1 & l2 & ->). rewrite flat_map_app. cbn [flat_map]. rewrite !dfold_app.
      assert (G1 : good (path_fields p) (flat_map (visit_sel p t) l1)).
      { apply good_flat. intros x Hx'. apply G. apply in_or_app; left; auto. }
      destruct (G1 m Hm) as (m1 & E & L & _). rewrite E. etransitivity; [|apply dfold_mono].
      cbn [visit_sel]. rewrite Hf. rewrite Hx. rewrite dfold_app, dfold_odirectives.
      change (OEnter al n args ds sub fd t true :: ?l) with ([OEnter al n args ds sub fd t true] ++ l).
      rewrite dfold_app. etransitivity; [|apply dfold_mono]. cbn. lia.
    - unfold query_depth.
      destruct (op_root_name S (op_type o)) as [m|] eqn:E1; [destruct (get_type S m) as [t0|] eqn:E2|].
      + assert (H0 : root_type S (op_type o) t0) by (apply op_root_type; eauto). rewrite (ovisit_operation_root _ H0).
        change (fold_left depth_step) with dfold. rewrite !dfold_app, dfold_odirectives, V.
        assert (G : good (path_fields []) (visit_at [] t0 (op_sel o))).
        { apply dfold_good; auto; [constructor; auto|constructor]. }
        destruct (G 0) as (m' & E & L & D); [cbn; lia|]. cbn [path_fields] in E. rewrite E. cbn. exact D.
      + left. unfold ovisit_operation. rewrite E1, E2. change (fold_left depth_step) with dfold. rewrite !dfold_app, dfold_odirectives.
        rewrite V. reflexivity.
      + left. unfold ovisit_operation. rewrite E1. change (fold_left depth_step) with dfold. rewrite !dfold_app, dfold_odirectives.
        rewrite V. reflexivity.
  Qed.
End Visit.
