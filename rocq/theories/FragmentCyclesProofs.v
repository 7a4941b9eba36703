From Verif Require Import Base Ast Graph Maps FragmentCycles FragmentsSpec.
From Coq Require Import Sorted.

Lemma selection_spreads_go sub :
  (fix go (l : list selection) : list name := match l with [] => [] | x :: l' => selection_spreads x ++ go l' end) sub
  = contained_spreads sub.
Proof. induction sub as [|x l IH]; cbn; auto. Qed.
Lemma selection_spreads_In n s : In n (selection_spreads s) <-> spread_in n s.
Proof.
  induction s as [al fn args ds sub IH|m ds|c ds sub IH] using selection_ind'; cbn [selection_spreads];
    rewrite ?selection_spreads_go; unfold contained_spreads.
  - rewrite Forall_forall in IH. rewrite in_flat_map. split.
    + intros (x & Hx & H). econstructor; eauto. apply IH; auto.
    + intros H. inversion H; subst. exists s. split; auto. apply IH; auto.
  - split; [intros [->|[]]; constructor | intros H; inversion H; left; auto].
  - rewrite Forall_forall in IH. rewrite in_flat_map. split.
    + intros (x & Hx & H). econstructor; eauto. apply IH; auto.
    + intros H. inversion H; subst. exists s. split; auto. apply IH; auto.
Qed.
Lemma contained_spreads_In n l : In n (contained_spreads l) <-> spreads n l.
Proof.
  unfold contained_spreads, spreads. rewrite in_flat_map. split; intros (s & H & H'); exists s; split; auto; apply selection_spreads_In; auto.
Qed.

Lemma defines_assoc {B} (g : fragment -> B) d n b :
  assoc_last n (map (fun f => (fr_name f, g f)) (doc_frags d)) = Some b <-> exists f, defines d n f /\ g f = b.
Proof.
  rewrite assoc_last_split. split.
  - intros (bf & af & E & Hn). apply map_eq_app in E as (l1 & l2 & E & E1 & E2).
    apply map_eq_cons in E2 as (f & l3 & -> & Ef & E3). injection Ef as Ef1 Ef2.
    exists f. split; auto. exists l1, l3. split; auto. split; auto.
    rewrite <- E3, map_map in Hn. exact Hn.
  - intros (f & (bf & af & E & En & Hn) & <-). exists (map (fun f => (fr_name f, g f)) bf), (map (fun f => (fr_name f, g f)) af).
    rewrite E, map_app. cbn. rewrite En. split; auto. rewrite map_map. exact Hn.
Qed.
Lemma defines_fun d n f g : defines d n f -> defines d n g -> f = g.
Proof.
  intros H1 H2. assert (E1 := proj2 (defines_assoc (fun f => f) d n f) (ex_intro _ f (conj H1 eq_refl))).
  assert (E2 := proj2 (defines_assoc (fun f => f) d n g) (ex_intro _ g (conj H2 eq_refl))). congruence.
Qed.
Lemma defines_name d n f : defines d n f -> fr_name f = n.
Proof. intros (b & a & _ & H & _); auto. Qed.

Section Cycle.
  Variable d : document.
  Let m := spreads_by_fragment d.
  Let U := map fst m.
  Lemma assoc_m n f l : assoc n m = Some (f, l) <-> defines d n f /\ l = contained_spreads (fr_sel f).
  Proof.
    unfold m, spreads_by_fragment. rewrite tmap_of_assoc.
    rewrite (defines_assoc (fun f => (f, contained_spreads (fr_sel f)))). split.
    - intros (g & Hg & [= -> <-]). auto.
    - intros (Hg & ->). eauto.
  Qed.
  Lemma uses_m a b : fragment_uses d a b <-> exists f l, assoc a m = Some (f, l) /\ In b l.
  Proof.
    unfold fragment_uses. split.
    - intros (f & Hf & Hs). exists f, (contained_spreads (fr_sel f)). split; [apply assoc_m; auto|apply contained_spreads_In; auto].
    - intros (f & l & Ha & Hb). apply assoc_m in Ha as (Hf & ->). exists f. split; auto. apply contained_spreads_In; auto.
  Qed.
  Lemma assoc_U n x : assoc n m = Some x -> In n U.
  Proof. intros H. apply assoc_In in H. apply (in_map fst) in H. exact H. Qed.

  Variable target : name.
  Lemma detect_total fuel : forall n V, S (unvisited text_dec U V) < fuel ->
    exists b, detect_cycle m target fuel n V = Some b /\ (b = true -> plus (fragment_uses d) n target).
  Proof.
    induction fuel as [|fuel IH]; intros n V Hf; [lia|]. cbn [detect_cycle].
    destruct (mem text_dec n V) eqn:Em; [exists false; split; [auto|discriminate]|]. apply mem_false in Em.
    destruct (assoc n m) as [[f l]|] eqn:Ea; [|exists false; split; [auto|discriminate]].
    assert (Hl : forall s, In s l -> fragment_uses d n s) by (intros s Hs; apply uses_m; eauto).
    apply assoc_U in Ea. pose proof (unvisited_cons text_dec U V n Ea Em).
    clear f Ea. induction l as [|s l IHl]; [exists false; split; [auto|discriminate]|].
    destruct (teqb s target) eqn:E.
    - apply teqb_eq in E. subst. exists true. split; auto. intros _. constructor. apply Hl. left; auto.
    - destruct (IH s (n :: V)) as [[|] [-> Hs]]; [lia| |].
      + exists true. split; auto. intros _. eapply plus_step; eauto. apply Hl; left; auto.
      + apply IHl. intros; apply Hl; right; auto.
  Qed.

  (** a chain of fragments ending in one that spreads the target *)
  Fixpoint chain (n : name) (p : list name) : Prop :=
    match p with [] => fragment_uses d n target | x :: p' => fragment_uses d n x /\ chain x p' end.
  Lemma plus_chain n : plus (fragment_uses d) n target -> exists p, chain n p.
  Proof.
    intros H. remember target as t eqn:E in H. revert E. induction H as [a b H|a b c H H1 IH]; intros ->.
    - exists []. exact H.
    - destruct (IH eq_refl) as (p & Hp). exists (b :: p). cbn. auto.
  Qed.
  Lemma chain_cut n p : chain n p -> forall x, In x p -> exists p', length p' < length p /\ chain x p' /\ incl p' p.
  Proof.
    revert n. induction p as [|y p IH]; intros n Hc x Hx; [destruct Hx|].
    destruct Hc as [Hu Hc]. destruct Hx as [->|Hx].
    - exists p. repeat split; auto. intros z Hz; right; auto.
    - destruct (IH y Hc x Hx) as (p' & H1 & H2 & H3). exists p'. cbn. repeat split; auto. intros z Hz; right; auto.
  Qed.

  Lemma detect_finds k : forall p n V fuel, length p <= k -> chain n p ->
    (forall x, In x (n :: p) -> ~ In x V) -> S (unvisited text_dec U V) < fuel ->
    detect_cycle m target fuel n V = Some true.
  Proof.
    induction k as [|k IH]; intros p n V fuel Hk Hc Hav Hf.
    - destruct p as [|y p]; [|cbn in Hk; lia]. destruct fuel as [|fuel]; [lia|]. cbn [detect_cycle].
      assert (Hn : ~ In n V) by (apply Hav; left; auto).
      rewrite (proj2 (mem_false text_dec n V) Hn). cbn in Hc. apply uses_m in Hc as (f & l & Ha & Hin). rewrite Ha.
      apply assoc_U in Ha. pose proof (unvisited_cons text_dec U V n Ha Hn). clear f Ha.
      induction l as [|s l IHl]; [destruct Hin|]. destruct (teqb_spec s target) as [E|E]; auto.
      destruct Hin as [->|Hin]; [congruence|].
      destruct (detect_total fuel s (n :: V)) as [[|] [-> _]]; auto. lia.
    - destruct (in_dec text_dec n p) as [Hin|Hnin].
      + destruct (chain_cut n p Hc n Hin) as (p' & H1 & H2 & H3).
        eapply (IH p'); eauto; [lia|]. intros x [->|Hx]; apply Hav; [left; auto|right; auto].
      + destruct p as [|y p]; [eapply (IH []); eauto; cbn; lia|].
        destruct fuel as [|fuel]; [lia|]. cbn [detect_cycle].
        assert (Hn : ~ In n V) by (apply Hav; left; auto).
        rewrite (proj2 (mem_false text_dec n V) Hn). cbn [chain] in Hc. destruct Hc as [Hu Hc].
        apply uses_m in Hu as (f & l & Ha & Hin). rewrite Ha.
        apply assoc_U in Ha. pose proof (unvisited_cons text_dec U V n Ha Hn) as Hlt. clear f Ha.
        induction l as [|s l IHl]; [destruct Hin|]. destruct (teqb_spec s target) as [E|E]; auto.
        destruct Hin as [->|Hin].
        * assert (E' : detect_cycle m target fuel y (n :: V) = Some true).
          { apply (IH p); [cbn in Hk; lia | exact Hc | | lia].
            intros x Hx [Hxn|Hxv].
            - subst x. apply Hnin. exact Hx.
            - apply (Hav x); [right; exact Hx|exact Hxv]. }
          rewrite E'. reflexivity.
        * destruct (detect_total fuel s (n :: V)) as [[|] [-> _]]; auto. lia.
  Qed.
End Cycle.

Lemma detect_iff d t n : exists b, detect_cycle (spreads_by_fragment d) t (S (S (length (spreads_by_fragment d)))) n [] = Some b /\
   (b = true <-> plus (fragment_uses d) n t).
Proof.
  assert (Hf : S (unvisited text_dec (map fst (spreads_by_fragment d)) []) < S (S (length (spreads_by_fragment d)))).
  { pose proof (unvisited_le text_dec (map fst (spreads_by_fragment d)) []). rewrite map_length in *. lia. }
  destruct (detect_total d t _ n [] Hf) as (b & Hb & Hs). exists b. split; auto. split; auto.
  intros Hp. apply plus_chain in Hp as (p & Hp).
  rewrite (detect_finds d t (length p) p n [] _ (le_n _) Hp (fun x _ H => H) Hf) in Hb. congruence.
Qed.

Lemma fragment_cycle_errors_spec d : exists errs, fragment_cycle_errors d = Some errs /\
  (forall f, In f errs <-> defines d (fr_name f) f /\ on_a_cycle d (fr_name f)) /\
  StronglySorted tlt (map fr_name errs).
Proof.
  unfold fragment_cycle_errors. set (m := spreads_by_fragment d).
  assert (Hm : forall k f l, In (k, (f, l)) m -> defines d k f).
  { intros k f l H. apply tmap_of_In in H.
    apply (defines_assoc (fun f => (f, contained_spreads (fr_sel f)))) in H as (g & Hg & [= -> _]). auto. }
  assert (Hm2 : forall f, defines d (fr_name f) f -> exists l, In (fr_name f, (f, l)) m).
  { intros f H. exists (contained_spreads (fr_sel f)). apply tmap_of_In.
    apply (defines_assoc (fun f => (f, contained_spreads (fr_sel f)))). eauto. }
  assert (Hsort : StronglySorted tlt (map fst m)) by apply tmap_of_sorted.
  assert (Hgen : forall l : list (name * (fragment * list name)), (forall k f r, In (k, (f, r)) l -> defines d k f) -> StronglySorted tlt (map fst l) ->
    exists errs, fold_right (fun e acc =>
    match acc, detect_cycle m (fr_name (fst (snd e))) (S (S (length m))) (fst e) [] with
    | Some errs, Some true => Some (fst (snd e) :: errs)
    | Some errs, Some false => Some errs
    | _, _ => None
    end) (Some []) l = Some errs /\
     (forall f, In f errs <-> (exists k r, In (k, (f, r)) l) /\ on_a_cycle d (fr_name f)) /\
     StronglySorted tlt (map fr_name errs)).
  { induction l as [|[k [f r]] l IH]; intros Hd Hs; cbn [fold_right].
    - exists []. split; auto. split; [|constructor]. intros f. split; [intros []|intros ((k & r & []) & _)].
    - cbn in Hs. inversion Hs as [|? ? Hs' Hall]; subst.
      destruct IH as (errs & -> & HI & HS); auto. { intros; eapply Hd; right; eauto. }
      cbn [fst snd]. assert (Hk : fr_name f = k) by (eapply defines_name, Hd; left; eauto).
      rewrite Hk. destruct (detect_iff d k k) as ([|] & Hb & Hiff); unfold m; rewrite Hb.
      + exists (f :: errs). split; auto. split.
        * intros g. cbn [In]. rewrite HI. split.
          -- intros [<-|[(k' & r' & Hin) Hc]].
             ++ split; [exists k, r; auto|]. unfold on_a_cycle. rewrite Hk. apply Hiff; auto.
             ++ split; auto. exists k', r'; auto.
          -- intros [(k' & r' & [[= -> -> ->]|Hin]) Hc]; [left; auto|right; split; auto; eauto].
        * cbn. constructor; auto. rewrite Hk. apply Forall_forall. intros x Hx.
          apply in_map_iff in Hx as (g & <- & Hg). apply HI in Hg as [(k' & r' & Hin) _].
          rewrite (defines_name d k' g) by (eapply Hd; right; eauto).
          rewrite Forall_forall in Hall. apply Hall. apply (in_map fst) in Hin. exact Hin.
      + exists errs. split; auto. split; auto. intros g. rewrite HI. split.
        * intros [(k' & r' & Hin) Hc]. split; auto. exists k', r'; right; auto.
        * intros [(k' & r' & [[= -> -> ->]|Hin]) Hc]; [|split; auto; eauto].
          exfalso. unfold on_a_cycle in Hc. rewrite Hk in Hc. apply Hiff in Hc. discriminate. }
  destruct (Hgen m Hm Hsort) as (errs & E & HI & HS). exists errs. split; auto. split; auto.
  intros f. rewrite HI. split; intros [H1 H2]; split; auto.
  - destruct H1 as (k & r & Hin). apply Hm in Hin as Hd. rewrite (defines_name _ _ _ Hd). auto.
  - destruct (Hm2 f H1) as (r & Hin). eauto.
Qed.
