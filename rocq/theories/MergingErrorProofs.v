(** What the errors of the merging rule are about: two fields of the document with the same response name that do differ as the
    error says, and a selection set of the document. *)
From Verif Require Import Base Ast Doc Merging MergingTermination.

Definition post {A} (m : M A) (st : mstate) (Q : A -> mstate -> Prop) : Prop := forall a st', m st = Some (a, st') -> Q a st'.
Lemma post_ret {A} (a : A) st (Q : A -> mstate -> Prop) : Q a st -> post (ret a) st Q.
Proof. intros H b st' E. injection E as <- <-. exact H. Qed.
Lemma post_bind {A B} (m : M A) (f : A -> M B) st (Q : A -> mstate -> Prop) (R : B -> mstate -> Prop) :
  post m st Q -> (forall a st', Q a st' -> post (f a) st' R) -> post (bind m f) st R.
Proof. intros H K b st' E. unfold bind in E. destruct (m st) as [[a st1]|] eqn:Em; [|discriminate]. exact (K a st1 (H a st1 Em) b st' E). Qed.
Lemma post_foldM {A B} (f : B -> A -> M B) (Inv : B -> mstate -> Prop) l : forall b st,
  (forall b a st, In a l -> Inv b st -> post (f b a) st Inv) -> Inv b st -> post (foldM f l b) st Inv.
Proof.
  induction l as [|a l IH]; intros b st H K; cbn [foldM]; [apply post_ret; exact K|].
  eapply post_bind; [apply H; [left; reflexivity|exact K]|]. intros b' st' K'. apply IH; [|exact K']. intros b2 a2 st2 Ha. apply H. right. exact Ha.
Qed.

Section Errors.
  Variable S : schema.
  Variable d : document.
  Variable ord : nat -> list (list fctx) -> list (list fctx).
  Hypothesis ord_In : forall k l g, In g (ord k l) <-> In g l.
  (** the places of the selection sets that are there *)
  Inductive real : set_id -> list selection -> Prop :=
  | rl_op i o : nth_error (doc_ops d) i = Some o -> real (ROp i, []) (op_sel o)
  | rl_frag i f : nth_error (doc_frags d) i = Some f -> real (RFrag i, []) (fr_sel f)
  | rl_field id sels j al n args ds sub : real id sels -> nth_error sels j = Some (SField al n args ds sub) -> sub <> [] -> real (inner_id id j) sub
  | rl_inline id sels j c ds sub : real id sels -> nth_error sels j = Some (SInline c ds sub) -> real (inner_id id j) sub.
  Lemma sets_in_real : forall s id sels t j e, real id sels -> nth_error sels j = Some s -> In e (sets_in S id t j s) -> real (fst (fst e)) (snd (fst e)).
  Proof using.
    induction s as [al n args ds sub IH|n ds|c ds sub IH] using selection_ind'; intros id sels t j e Hp Hj He.
    - rewrite sets_in_field in He. destruct (get_field (td_fields t) n) as [fd|]; [|destruct He].
      destruct sub as [|s sub]; [destruct He|]. destruct (get_type S (tref_base (fd_type fd))) as [t'|]; [|destruct He].
      rewrite Forall_forall in IH. assert (Hp' : real (inner_id id j) (s :: sub)) by (apply (rl_field _ _ _ _ _ _ _ _ Hp Hj); discriminate).
      destruct He as [<-|He]; [exact Hp'|]. apply (proj1 (sets_from_In _ _ _ _ _ _)) in He as (k & s' & Hk & He). eapply IH; eauto. eapply nth_error_In; eauto.
    - destruct He.
    - rewrite sets_in_inline in He. destruct (match c with Some c => get_type S c | None => Some t end) as [t'|]; [|destruct He].
      rewrite Forall_forall in IH. pose proof (rl_inline _ _ _ _ _ _ Hp Hj) as Hp'.
      destruct He as [<-|He]; [exact Hp'|]. apply (proj1 (sets_from_In _ _ _ _ _ _)) in He as (k & s' & Hk & He). eapply IH; eauto. eapply nth_error_In; eauto.
  Qed.
  Lemma document_sets_real e : In e (document_sets S d) -> real (fst (fst e)) (snd (fst e)).
  Proof using.
    unfold document_sets, mapi. intros H. apply in_app_iff in H as [H|H]; apply in_concat in H as (l & Hl & He); apply mapi_from_In in Hl as (i & x & Hi & ->).
    - destruct (op_root_name S (op_type x)); [|destruct He]. destruct (get_type S t) as [t'|]; [|destruct He].
      pose proof (rl_op _ _ Hi) as Hp. destruct He as [<-|He]; [exact Hp|]. apply (proj1 (sets_from_In _ _ _ _ _ _)) in He as (k & s' & Hk & He). eapply sets_in_real; eauto.
    - destruct (get_type S (fr_cond x)) as [t'|]; [|destruct He].
      pose proof (rl_frag _ _ Hi) as Hp. destruct He as [<-|He]; [exact Hp|]. apply (proj1 (sets_from_In _ _ _ _ _ _)) in He as (k & s' & Hk & He). eapply sets_in_real; eauto.
  Qed.
  (** the context is a field at its place *)
  Definition here (x : fctx) : Prop :=
    exists id sels j ds, real id sels /\ nth_error sels j = Some (SField (cx_alias x) (cx_name x) (cx_args x) ds (cx_sub x)) /\ cx_id x = inner_id id j.
  Definition about (id : set_id) (a b : fctx) : Prop := (exists sels, real id sels) /\ here a /\ here b /\ cx_key a = cx_key b.
  Definition justified (e : merge_error) : Prop :=
    match e with
    | IncompatibleTypes id a b => about id a b /\ same_type_shape S (fd_type (cx_def a)) (fd_type (cx_def b)) = false
    | DifferingNames id a b => about id a b /\ cx_name a <> cx_name b
    | DifferingArguments id a b => about id a b /\ cx_name a = cx_name b /\ ValueEq.arguments_equivalent (cx_args a) (cx_args b) = false
    end.
  Definition sound_state (st : mstate) : Prop := forall id es e, In (id, es) (ms_cache st) -> In e es -> justified e.
  Definition grouped (g : list fctx) : Prop := (forall x, In x g -> here x) /\ forall x y, In x g -> In y g -> cx_key x = cx_key y.
  Definition valid_sound (valid : valid_fn) : Prop := forall id sels t st, real id sels -> sound_state st -> post (valid id sels t) st (fun _ => sound_state).
  Definition visit_sound (visit : visit_fn) : Prop := forall id sels t frags acc st, real id sels -> (forall x, In x acc -> here x) -> sound_state st ->
    post (visit id sels t frags acc) st (fun out st' => sound_state st' /\ forall x, In x out -> here x).
  Definition check_sound (check : set_id -> list fctx -> M (list merge_error)) : Prop := forall id sels g st, real id sels -> grouped g -> sound_state st ->
    post (check id g) st (fun es st' => sound_state st' /\ forall e, In e es -> justified e).

  Lemma here_real x : here x -> cx_sub x <> [] -> real (cx_id x) (cx_sub x).
  Proof using. intros (id & sels & j & ds & H & K & ->) N. exact (rl_field id sels j _ _ _ ds _ H K N). Qed.
  Lemma collect_sound {A} (f : A -> M (list merge_error)) l st : sound_state st ->
    (forall a st, In a l -> sound_state st -> post (f a) st (fun es st' => sound_state st' /\ forall e, In e es -> justified e)) ->
    post (collectM f l) st (fun es st' => sound_state st' /\ forall e, In e es -> justified e).
  Proof using.
    intros H K. unfold collectM. apply post_foldM; [|split; [exact H|intros e []]]. intros acc a st' Ha (H1 & H2). eapply post_bind; [apply K; [exact Ha|exact H1]|].
    intros es st2 (H3 & H4). apply post_ret. split; [exact H3|]. intros e He. apply in_app_or in He. destruct He as [He|He]; auto.
  Qed.
  Lemma order_sound l st : sound_state st -> post (in_some_order ord l) st (fun gs st' => sound_state st' /\ forall g, In g gs -> In g l).
  Proof using ord_In. intros H gs st' E. injection E as <- <-. split; [exact H|]. intros g Hg. apply ord_In in Hg. exact Hg. Qed.
  Lemma groups_grouped l g : (forall x, In x l -> here x) -> In g (groups_by cx_key l) -> grouped g.
  Proof using.
    intros H Hg. apply groups_by_In in Hg. destruct Hg as (k & _ & Hk). split; [intros x Hx; apply H; apply Hk in Hx; tauto|].
    intros x y Hx Hy. apply Hk in Hx, Hy. destruct Hx as (_ & ->). destruct Hy as (_ & ->). reflexivity.
  Qed.
  Lemma nested_sound valid visit g st : valid_sound valid -> visit_sound visit -> (forall x, In x g -> here x) -> sound_state st ->
    post (nested_fields S valid visit g) st (fun out st' => sound_state st' /\ forall x, In x out -> here x).
  Proof using.
    intros Hv Hw Hg H. unfold nested_fields. apply post_foldM; [|split; [exact H|intros x []]]. intros acc x st' Hx (H1 & H2).
    destruct (cx_sub x) as [|s sub] eqn:Es; [apply post_ret; auto|]. assert (N : cx_sub x <> []) by (rewrite Es; discriminate). rewrite <- Es. destruct (get_type S (tref_base (fd_type (cx_def x)))) as [t|]; [|apply post_ret; auto].
    eapply post_bind; [apply Hv; [apply here_real; [apply Hg; exact Hx|exact N]|exact H1]|]. cbn beta. intros b st2 H3. destruct b; [|apply post_ret; auto].
    apply Hw; auto. apply here_real; [apply Hg; exact Hx|exact N].
  Qed.
  Lemma visit_one_sound valid visit id sels t frags acc js st : valid_sound valid -> visit_sound visit -> real id sels -> In js (numbered sels) ->
    (forall x, In x acc -> here x) -> sound_state st -> post (visit_one S d valid visit id t frags acc js) st (fun out st' => sound_state st' /\ forall x, In x out -> here x).
  Proof using.
    intros Hv Hw Hp Hjs Ha H. destruct js as [j s]. apply (proj1 (numbered_In _ _ _)) in Hjs. unfold visit_one. cbn [fst snd]. destruct s as [al n args ds sub|n ds|c ds sub].
    - apply post_ret. split; [exact H|]. intros x Hx. apply in_app_or in Hx. destruct Hx as [Hx|Hx]; [auto|]. unfold field_context in Hx. destruct (get_field (td_fields t) n); [|destruct Hx].
      destruct Hx as [<-|[]]. exists id, sels, j, ds. auto.
    - destruct (tmem n frags); [apply post_ret; auto|]. destruct (fragment_named d n) as [[i f]|] eqn:Ef; [|apply post_ret; auto].
      destruct (get_type S (fr_cond f)) as [t1|]; [|apply post_ret; auto].
      assert (Hpf : real (RFrag i, []) (fr_sel f)) by (apply rl_frag; apply fragment_named_spec in Ef; tauto).
      eapply post_bind; [apply Hv; [exact Hpf|exact H]|]. cbn beta. intros b st2 H2. destruct b; [|apply post_ret; auto]. apply Hw; auto.
    - destruct (match c with Some c => get_type S c | None => Some t end) as [t1|]; [|apply post_ret; auto].
      assert (Hpi : real (inner_id id j) sub) by (eapply rl_inline; eauto).
      eapply post_bind; [apply Hv; [exact Hpi|exact H]|]. cbn beta. intros b st2 H2. destruct b; [|apply post_ret; auto]. apply Hw; auto.
  Qed.
  Lemma insert_sound id es st : sound_state st -> (forall e, In e es -> justified e) -> sound_state (insert id es st).
  Proof using.
    intros H K id' es' e [E|Hin] He; [injection E as <- <-; auto|]. apply filter_In in Hin. exact (H id' es' e (proj1 Hin) He).
  Qed.
  Lemma rule_errors_sound fuel :
    valid_sound (set_valid S d ord fuel) /\ visit_sound (visit_fields S d ord fuel) /\ check_sound (same_shape S d ord fuel) /\ check_sound (same_parents S d ord fuel).
  Proof using ord_In.
    induction fuel as [|fuel (IHv & IHw & IHs & IHp)]; [repeat split; repeat intro; discriminate|]. split; [|split; [|split]].
    - intros id sels t st Hp H. intros b st' E. cbn [set_valid] in E. destruct (lookup id (ms_cache st)) as [es|]; [injection E as <- <-; exact H|]. revert b st' E.
      change (post (let! fields := visit_fields S d ord fuel id sels t [] [] in
                     let! gs := in_some_order ord (groups_by cx_key fields) in
                     let! es := collectM (fun g => let! e1 := same_shape S d ord fuel id g in let! e2 := same_parents S d ord fuel id g in ret (e1 ++ e2)) gs in
                     (fun st' => Some (is_nil es, insert id es st'))) (insert id [] st) (fun _ => sound_state)).
      eapply post_bind; [apply IHw; [exact Hp|intros x []|apply insert_sound; [exact H|intros e []]]|]. cbn beta. intros fields st1 (H1 & Hf).
      eapply post_bind; [apply order_sound; exact H1|]. cbn beta. intros gs st2 (H2 & Hgs).
      eapply post_bind; [apply collect_sound; [exact H2|]|].
      + intros g st3 Hg H3. pose proof (groups_grouped fields g Hf (Hgs g Hg)) as G. eapply post_bind; [apply (IHs id sels); auto|]. cbn beta. intros e1 st4 (H4 & E1).
        eapply post_bind; [apply (IHp id sels); auto|]. cbn beta. intros e2 st5 (H5 & E2). apply post_ret. split; [exact H5|]. intros e He. apply in_app_or in He. destruct He; auto.
      + cbn beta. intros es st3 (H3 & K) b st' E. injection E as <- <-. apply insert_sound; auto.
    - intros id sels t frags acc st Hp Ha H. cbn [visit_fields]. apply post_foldM; [|auto]. intros out js st' Hjs (H1 & H2). apply (visit_one_sound _ _ id sels); auto.
    - intros id sels g st Hp (Gh & Gk) H. cbn [same_shape]. destruct g as [|x [|y g]]; [apply post_ret; split; [exact H|intros e []]|apply post_ret; split; [exact H|intros e []]|].
      destruct (is_nil (shape_errors S id x (y :: g))).
      + eapply post_bind; [apply nested_sound; auto|]. cbn beta. intros nested st1 (H1 & Hn). eapply post_bind; [apply order_sound; exact H1|]. cbn beta. intros gs st2 (H2 & Hgs).
        apply collect_sound; [exact H2|]. intros g' st3 Hg' H3. apply (IHs id sels); auto. apply (groups_grouped nested); auto.
      + apply post_ret. split; [exact H|]. intros e He. unfold shape_errors in He. apply in_flat_map in He. destruct He as (z & Hz & He).
        destruct (same_type_shape S _ _) eqn:Es; [destruct He|]. destruct He as [<-|[]]. split; [|exact Es]. split; [exists sels; exact Hp|].
        split; [apply Gh; left; reflexivity|]. split; [apply Gh; right; exact Hz|]. apply Gk; [left; reflexivity|right; exact Hz].
    - intros id sels g st Hp G H. pose proof G as (Gh & Gk). cbn [same_parents]. destruct g as [|x [|y g]]; [apply post_ret; split; [exact H|intros e []]|apply post_ret; split; [exact H|intros e []]|].
      eapply post_bind; [apply order_sound; exact H|]. cbn beta. intros pgs st1 (H1 & Hpgs). apply collect_sound; [exact H1|]. intros pg st2 Hpg H2.
      assert (Sub : forall z, In z pg -> In z (x :: y :: g)) by (intros z Hz; apply Hpgs in Hpg; eapply parent_groups_incl; eauto).
      destruct (is_nil (parent_errors id pg)).
      + eapply post_bind; [apply nested_sound; auto|]. cbn beta. intros nested st3 (H3 & Hn). eapply post_bind; [apply order_sound; exact H3|]. cbn beta. intros gs st4 (H4 & Hgs).
        apply collect_sound; [exact H4|]. intros g' st5 Hg' H5. apply (IHp id sels); auto. apply (groups_grouped nested); auto.
      + apply post_ret. split; [exact H2|]. intros e He. unfold parent_errors in He. destruct pg as [|first rest]; [destruct He|]. apply in_flat_map in He. destruct He as (z & Hz & He).
        assert (A : about id first z).
        { split; [exists sels; exact Hp|]. split; [apply Gh, Sub; left; reflexivity|]. split; [apply Gh, Sub; right; exact Hz|]. apply Gk; apply Sub; [left; reflexivity|right; exact Hz]. }
        destruct (teqb_spec (cx_name first) (cx_name z)) as [En|En]; cbn [negb] in He.
        * destruct (ValueEq.arguments_equivalent _ _) eqn:Ea; [destruct He|]. destruct He as [<-|[]]. split; auto.
        * destruct He as [<-|[]]. split; auto.
  Qed.
  Theorem merging_errors_justified es e : merging_errors S d ord = Some es -> In e es -> justified e.
  Proof using ord_In.
    unfold merging_errors, merging_run. intros H He. destruct (foldM _ (document_sets S d) true _) as [[b st]|] eqn:E; [|discriminate]. injection H as <-.
    assert (K : sound_state st).
    { refine (post_foldM _ (fun _ st => sound_state st) (document_sets S d) true _ _ _ b st E); [|intros id es e' []].
      intros b' x st' Hx Hs. apply (proj1 (rule_errors_sound (merging_fuel d))); [exact (document_sets_real x Hx)|exact Hs]. }
    apply in_flat_map in He. destruct He as ((id & l) & Hin & He). exact (K id l e Hin He).
  Qed.
End Errors.
