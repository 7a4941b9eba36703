(** If the merging rule reports nothing, there are no conflicts: proofs. *)
From Verif Require Import Base Ast Graph Maps Doc DocSpec DocRulesSpec FragmentsSpec FragmentCyclesProofs ValueEq ValueEqSpec ValueEqProofs Merging MergingSpec MergingTermination MergingProofs.

Section Sound.
  Variable S : schema.
  Variable d : document.
  Variable ord : nat -> list (list fctx) -> list (list fctx).
  Hypothesis ord_In : forall k l g, In g (ord k l) <-> In g l.
  Hypothesis no_cycles : acyclic d.
  Hypothesis numbers : plain_numbers d.
  Hypothesis agree : fields_agree S d.
  Set Default Proof Using "Type".

  Notation lexical := (lexical S d).
  Notation collected := (collected S d).
  Notation sconf := (sconf S d).
  Notation pconf := (pconf S d can_meet_not_union).
  Notation below := (below S d).
  Notation frags_ok := (frags_ok d).

  (** there is a conflict of depth [n] in some selection set *)
  Definition bad (n : nat) : Prop :=
    exists id sels t x y, lexical id sels t /\ collected t sels x /\ collected t sels y /\ sf_key x = sf_key y /\ (sconf n x y \/ pconf n x y).
  Definition lower (n : nat) : Prop := exists m, m < n /\ bad m.
  Lemma lower_le n m : n <= m -> lower n -> lower m.
  Proof. intros H (k & Hk & B). exists k. split; auto. lia. Qed.

  (** a conflict in the set implies a smaller one somewhere *)
  Definition checked (id : set_id) : Prop :=
    forall sels t x y n, lexical id sels t -> collected t sels x -> collected t sels y -> sf_key x = sf_key y -> sconf n x y \/ pconf n x y -> lower n.
  (** all fields of the one set are fields of the other *)
  Definition covered (id id' : set_id) : Prop :=
    exists sels' t', lexical id' sels' t' /\ forall sels t x, lexical id sels t -> collected t sels x -> collected t' sels' x.
  Definition settled (st : mstate) (id : set_id) : Prop := seen st id \/ checked id \/ exists id', seen st id' /\ covered id id'.

  Lemma covered_refl id sels t : lexical id sels t -> covered id id.
  Proof. intros H. exists sels, t. split; auto. intros s u x Hl. destruct (lexical_fun S d _ _ _ H _ _ Hl) as [-> ->]. auto. Qed.
  Lemma covered_trans a b c : covered a b -> covered b c -> covered a c.
  Proof. intros (s & t & Hb & H) (s' & t' & Hc & K). exists s', t'. split; auto. intros. eapply K; eauto. Qed.
  Lemma covered_checked a b : covered a b -> checked b -> checked a.
  Proof. intros (s & t & Hb & H) K s' t' x y n Hl Hx Hy. eapply K; eauto. Qed.
  Lemma settled_trans st st1 id : settled st1 id -> (forall id', seen st1 id' -> settled st id') -> settled st id.
  Proof.
    intros [H|[H|(id2 & H & C)]] K; [auto|right; auto|]. destruct (K id2 H) as [H2|[H2|(id3 & H3 & C3)]].
    - right. right. eauto.
    - right. left. eapply covered_checked; eauto.
    - right. right. exists id3. split; auto. eapply covered_trans; eauto.
  Qed.
  Lemma settled_seen st id : seen st id -> settled st id.
  Proof. left. auto. Qed.

  (** what is true of every field context *)
  Record good (x : fctx) : Prop := {
    good_field : has_field (cx_type x) (cx_name x) (cx_def x);
    good_set : forall t, cx_sub x <> [] -> get_type S (tref_base (fd_type (cx_def x))) = Some t -> lexical (cx_id x) (cx_sub x) t;
    good_frags : frags_ok (fst (cx_id x)) (cx_frags x);
    good_args : args_plain (cx_args x) }.
  (** the set may be visited on type [t] *)
  Definition visitable (id : set_id) (sels : list selection) (t : tdef) : Prop := exists t', lexical id sels t' /\ entered S d t t' sels.
  Lemma visitable_lexical id sels t : lexical id sels t -> visitable id sels t.
  Proof. intros H. exists t. split; auto. eapply ent_set. eapply lexical_set_at; eauto. Qed.

  Definition valid_sound (valid : valid_fn) : Prop :=
    forall id sels t st b st', visitable id sels t -> valid id sels t st = Some (b, st') ->
      extends st st' /\ (clean st' -> b = true /\ seen st' id /\ (forall id', seen st' id' -> settled st id' \/ covered id' id) /\
                         (lexical id sels t -> forall id', seen st' id' -> settled st id')).
  Definition visit_sound (visit : visit_fn) : Prop :=
    forall id sels t frags acc st out st', visitable id sels t -> frags_ok (fst id) frags -> visit id sels t frags acc st = Some (out, st') ->
      extends st st' /\ (forall x, In x out -> In x acc \/ good x) /\
      (clean st' -> (forall id', seen st' id' -> settled st id' \/ covered id' id) /\ incl acc out /\
                    (forall y, collected t sels y -> exists x, In x out /\ sf_of x = y)).

  Lemma visit_one_sound valid visit id sels t frags acc j s st out st' :
    valid_sound valid -> visit_sound visit -> visitable id sels t -> frags_ok (fst id) frags -> nth_error sels j = Some s ->
    visit_one S d valid visit id t frags acc (j, s) st = Some (out, st') ->
    extends st st' /\ (forall x, In x out -> In x acc \/ good x) /\
    (clean st' -> (forall id', seen st' id' -> settled st id' \/ covered id' id) /\ incl acc out /\
                  (forall y, collected t [s] y -> exists x, In x out /\ sf_of x = y)).
  Proof using no_cycles numbers agree.
    intros Hv Hw Hvis Hfr Hj E. unfold visit_one in E. cbn [fst snd] in E. destruct Hvis as (t' & Hl & He).
    pose proof (lexical_place S d _ _ _ Hl) as Hp. pose proof (nth_error_In _ _ Hj) as Hin.
    assert (Hskip : out = acc -> st' = st -> (forall y, collected t [s] y -> False) ->
      extends st st' /\ (forall x, In x out -> In x acc \/ good x) /\
      (clean st' -> (forall id', seen st' id' -> settled st id' \/ covered id' id) /\ incl acc out /\
                  (forall y, collected t [s] y -> exists x, In x out /\ sf_of x = y))).
    { intros -> -> Hno. split; [apply extends_refl|]. split; [intros x; auto|]. intros _. split; [intros id' H; left; left; auto|]. split; [intros z; auto|].
      intros y Hy. destruct (Hno y Hy). }
    destruct s as [al n args ds sub|n ds|c ds sub].
    - injection E as <- <-. split; [apply extends_refl|]. unfold field_context. split.
      + intros x Hx. apply in_app_iff in Hx as [Hx|Hx]; [auto|right]. destruct (get_field (td_fields t) n) as [fd|] eqn:Ef; [|destruct Hx].
        destruct Hx as [<-|[]]. destruct (agree t t' sels al n args ds sub fd He Hin Ef) as (fd' & Hf' & Eb). split; cbn.
        * exact Ef.
        * intros t1 Hs Ht1. rewrite Eb in Ht1. eapply lex_field; eauto.
        * exact Hfr.
        * assert (O : occurs_in d (SField al n args ds sub) (fst id)); [|apply (numbers _ _ _ _ _ _ O)].
          clear -Hp Hin. assert (Ho : occurs (SField al n args ds sub) sels) by (constructor; auto). clear Hin.
          induction Hp as [i o Ho'|i f Hf|id sels j al' n' args' ds' sub' Hp IH Hj|id sels j c ds' sub' Hp IH Hj]; cbn in *.
          -- econstructor; eauto.
          -- eapply occ_frag; eauto.
          -- apply IH. eapply occ_field; eauto. eapply nth_error_In; eauto.
          -- apply IH. eapply occ_inline; eauto. eapply nth_error_In; eauto.
      + intros _. split; [intros id' H; left; left; auto|]. split; [intros z Hz; apply in_app_iff; auto|].
        intros y Hy. inversion Hy as [t0 s0 al0 n0 args0 ds0 sub0 fd Hi Hf|t0 s0 ds0 sub0 x Hi|t0 s0 c ds0 sub0 t1 x Hi|t0 s0 n0 ds0 f t1 x Hi]; subst; destruct Hi as [Hi|[]]; try discriminate Hi.
        injection Hi as <- <- <- <- <-. unfold has_field in Hf. rewrite Hf. eexists. split; [apply in_app_iff; right; left; reflexivity|reflexivity].
    - rewrite (frags_ok_fresh d id sels n ds frags no_cycles Hp Hin Hfr) in E.
      destruct (fragment_named d n) as [[i f]|] eqn:Ef.
      2: { injection E as <- <-. apply Hskip; auto. intros y Hy. inversion Hy as [? ? ? ? ? ? ? ? Hi|? ? ? ? ? Hi|? ? ? ? ? ? ? Hi|? ? n0 ds0 f t1 x Hi Hd]; subst; destruct Hi as [Hi|[]]; try discriminate Hi.
           injection Hi as <- <-. apply fragment_named_iff in Hd as [i Hd]. congruence. }
      pose proof (fragment_named_defines d _ _ _ Ef) as Hd.
      destruct (get_type S (fr_cond f)) as [t1|] eqn:Et.
      2: { injection E as <- <-. apply Hskip; auto. intros y Hy. inversion Hy as [? ? ? ? ? ? ? ? Hi|? ? ? ? ? Hi|? ? ? ? ? ? ? Hi|? ? n0 ds0 f0 t1 x Hi Hd0 Ht0]; subst; destruct Hi as [Hi|[]]; try discriminate Hi.
           injection Hi as <- <-. rewrite (defines_fun d n f0 f Hd0 Hd) in Ht0. congruence. }
      assert (Hi : nth_error (doc_frags d) i = Some f) by (apply fragment_named_spec in Ef; tauto).
      assert (Hlf : lexical (RFrag i, []) (fr_sel f) t1) by (constructor; constructor; auto).
      assert (Hcov : covered (RFrag i, []) id).
      { exists sels, t'. split; auto. intros s0 u0 x Hl0 Hx. destruct (lexical_fun S d _ _ _ Hlf _ _ Hl0) as [-> ->]. eapply col_spread; eauto. }
      apply bind_Some in E as (b & st1 & E1 & E2).
      destruct (Hv (RFrag i, []) (fr_sel f) t st b st1) as [X1 K1]; auto.
      { exists t1. split; auto. eapply ent_spread; eauto. }
      destruct b.
      + destruct (Hw (RFrag i, []) (fr_sel f) t1 (n :: frags) acc st1 out st') as (X2 & Hg & K2); auto.
        { apply visitable_lexical; auto. }
        { eapply frags_ok_cons; eauto. }
        split; [eapply extends_trans; eauto|]. split; auto. intros Hc. destruct (K1 (extends_clean _ _ X2 Hc)) as (_ & Hsn & Hs1 & _).
        destruct (K2 Hc) as (Hs2 & Hinc & Hcol). split; [|split]; auto.
        * intros id' H'. destruct (Hs2 id' H') as [H2|H2]; [|right; eapply covered_trans; eauto].
          destruct H2 as [H2|[H2|(id2 & H2 & C2)]].
          -- destruct (Hs1 id' H2) as [H3|H3]; [auto|right; eapply covered_trans; eauto].
          -- left. right. left. auto.
          -- destruct (Hs1 id2 H2) as [[H3|[H3|(id3 & H3 & C3)]]|H3].
             ++ left. right. right. eauto.
             ++ left. right. left. eapply covered_checked; eauto.
             ++ left. right. right. exists id3. split; auto. eapply covered_trans; eauto.
             ++ right. eapply covered_trans; eauto. eapply covered_trans; eauto.
        * intros y Hy. inversion Hy as [? ? ? ? ? ? ? ? Hi0|? ? ? ? ? Hi0|? ? ? ? ? ? ? Hi0|? ? n0 ds0 f0 t0 x Hi0 Hd0 Ht0 Hx]; subst; destruct Hi0 as [Hi0|[]]; try discriminate Hi0.
          injection Hi0 as <- <-. rewrite (defines_fun d n f0 f Hd0 Hd) in *. rewrite Et in Ht0. injection Ht0 as <-. apply Hcol; auto.
      + injection E2 as <- <-. split; auto. split; auto. intros Hc. destruct (K1 Hc) as [Hb _]. discriminate.
    - assert (Hc1 : exists t1, (match c with Some c => get_type S c | None => Some t end = Some t1 /\ (exists t2, lexical (inner_id id j) sub t2 /\ entered S d t1 t2 sub)
                     /\ (forall y, collected t [SInline c ds sub] y -> collected t1 sub y)) \/ (match c with Some c => get_type S c | None => Some t end = None)).
      { destruct c as [c|].
        - destruct (get_type S c) as [t1|] eqn:Et; [|exists t; auto]. exists t1. left. split; auto. split.
          + exists t1. assert (Hl1 : lexical (inner_id id j) sub t1) by (eapply lex_inline_on; eauto). split; auto. eapply ent_set. eapply lexical_set_at; eauto.
          + intros y Hy. inversion Hy as [? ? ? ? ? ? ? ? Hi0|? ? ? ? ? Hi0|? ? ? ? ? ? ? Hi0 Ht0|? ? n0 ds0 f0 t0 x Hi0]; subst; destruct Hi0 as [Hi0|[]]; try discriminate Hi0.
            injection Hi0 as <- <- <-. rewrite Et in Ht0. injection Ht0 as <-. auto.
        - exists t. left. split; auto. split.
          + exists t'. split; [eapply lex_inline; eauto|eapply ent_inline; eauto].
          + intros y Hy. inversion Hy as [? ? ? ? ? ? ? ? Hi0|? ? ? ? ? Hi0|? ? ? ? ? ? ? Hi0|? ? n0 ds0 f0 t0 x Hi0]; subst; destruct Hi0 as [Hi0|[]]; try discriminate Hi0.
            injection Hi0 as <- <-. auto. }
      destruct Hc1 as (t1 & [(Et & (t2 & Hl2 & He2) & Hcol0)|Et]); rewrite Et in E.
      2: { injection E as <- <-. apply Hskip; auto. destruct c as [c|]; [|discriminate].
           intros y Hy. inversion Hy as [? ? ? ? ? ? ? ? Hi0|? ? ? ? ? Hi0|? ? ? ? ? ? ? Hi0 Ht0|? ? n0 ds0 f0 t0 x Hi0]; subst; destruct Hi0 as [Hi0|[]]; try discriminate Hi0.
           injection Hi0 as <- <- <-. congruence. }
      assert (Hcov : covered (inner_id id j) id).
      { exists sels, t'. split; auto. intros s0 u0 x Hl0 Hx. destruct c as [c|].
        - assert (Hl1 : lexical (inner_id id j) sub t1) by (eapply lex_inline_on; eauto). destruct (lexical_fun S d _ _ _ Hl1 _ _ Hl0) as [-> ->]. eapply col_inline_on; eauto.
        - assert (Hl1 : lexical (inner_id id j) sub t') by (eapply lex_inline; eauto). destruct (lexical_fun S d _ _ _ Hl1 _ _ Hl0) as [-> ->]. eapply col_inline; eauto. }
      assert (Hvis : visitable (inner_id id j) sub t1) by (exists t2; auto).
      apply bind_Some in E as (b & st1 & E1 & E2).
      destruct (Hv (inner_id id j) sub t1 st b st1) as [X1 K1]; auto. destruct b.
      + destruct (Hw (inner_id id j) sub t1 frags acc st1 out st') as (X2 & Hg & K2); auto.
        split; [eapply extends_trans; eauto|]. split; auto. intros Hc. destruct (K1 (extends_clean _ _ X2 Hc)) as (_ & Hsn & Hs1 & _).
        destruct (K2 Hc) as (Hs2 & Hinc & Hcol). split; [|split]; auto.
        intros id' H'. destruct (Hs2 id' H') as [H2|H2]; [|right; eapply covered_trans; eauto].
        destruct H2 as [H2|[H2|(id2 & H2 & C2)]].
        * destruct (Hs1 id' H2) as [H3|H3]; [auto|right; eapply covered_trans; eauto].
        * left. right. left. auto.
        * destruct (Hs1 id2 H2) as [[H3|[H3|(id3 & H3 & C3)]]|H3].
          -- left. right. right. eauto.
          -- left. right. left. eapply covered_checked; eauto.
          -- left. right. right. exists id3. split; auto. eapply covered_trans; eauto.
          -- right. eapply covered_trans; eauto. eapply covered_trans; eauto.
      + injection E2 as <- <-. split; auto. split; auto. intros Hc. destruct (K1 Hc) as [Hb _]. discriminate.
  Qed.

  (** settled or covered by the set itself, in two steps *)
  Lemma settled_step st st1 id id' : settled st1 id' \/ covered id' id -> (forall i, seen st1 i -> settled st i \/ covered i id) -> settled st id' \/ covered id' id.
  Proof.
    intros [[H|[H|(id2 & H & C)]]|H] K; auto.
    - left. right. auto.
    - destruct (K id2 H) as [[H3|[H3|(id3 & H3 & C3)]]|H3].
      + left. right. right. eauto.
      + left. right. left. eapply covered_checked; eauto.
      + left. right. right. exists id3. split; auto. eapply covered_trans; eauto.
      + right. eapply covered_trans; eauto.
  Qed.

  Lemma visit_loop_sound valid visit id sels t frags acc st out st' :
    valid_sound valid -> visit_sound visit -> visitable id sels t -> frags_ok (fst id) frags ->
    foldM (visit_one S d valid visit id t frags) (numbered sels) acc st = Some (out, st') ->
    extends st st' /\ (forall x, In x out -> In x acc \/ good x) /\
    (clean st' -> (forall id', seen st' id' -> settled st id' \/ covered id' id) /\ incl acc out /\
                  (forall y, collected t sels y -> exists x, In x out /\ sf_of x = y)).
  Proof using no_cycles numbers agree.
    intros Hv Hw Hvis Hfr E.
    pose (Inv := fun (done : list (nat * selection)) (out : list fctx) (st' : mstate) =>
      extends st st' /\ (forall x, In x out -> In x acc \/ good x) /\
      (clean st' -> (forall id', seen st' id' -> settled st id' \/ covered id' id) /\ incl acc out /\
                    (forall j s, In (j, s) done -> forall y, collected t [s] y -> exists x, In x out /\ sf_of x = y))).
    assert (K : Inv (numbered sels) out st').
    { eapply (foldM_Some _ Inv); [| |exact E].
      - split; [apply extends_refl|]. split; [auto|]. intros _. split; [intros id' H; left; left; auto|]. split; [intros z; auto|]. intros j s [].
      - intros done [j s] rest o1 s1 o2 s2 El (X1 & C1 & K1) E1. assert (Hj : nth_error sels j = Some s) by (apply numbered_In; eapply in_middle; eauto).
        destruct (visit_one_sound valid visit id sels t frags o1 j s s1 o2 s2 Hv Hw Hvis Hfr Hj E1) as (X2 & C2 & K2).
        split; [eapply extends_trans; eauto|]. split; [intros x Hx; destruct (C2 x Hx); auto|].
        intros Hc. destruct (K1 (extends_clean _ _ X2 Hc)) as (A1 & B1 & D1). destruct (K2 Hc) as (A2 & B2 & D2).
        split; [|split].
        + intros id' H'. eapply settled_step; eauto.
        + intros z Hz. auto.
        + intros j0 s0 Hin y Hy. apply in_app_iff in Hin as [Hin|[Hin|[]]].
          * destruct (D1 j0 s0 Hin y Hy) as (x & Hx & Ex). exists x. auto.
          * injection Hin as <- <-. auto. }
    destruct K as (X & C & K). split; auto. split; auto. intros Hc. destruct (K Hc) as (A & B & D). split; [|split]; auto.
    intros y Hy. assert (Hs : exists j s, In (j, s) (numbered sels) /\ collected t [s] y).
    { inversion Hy as [t0 s0 al n args ds sub fd Hi Hf|t0 s0 ds sub x Hi|t0 s0 c ds sub t1 x Hi|t0 s0 n ds f t1 x Hi]; subst; pose proof Hi as Hi'; apply In_nth_error in Hi as [j Hj];
        exists j; eexists; (split; [apply numbered_In; exact Hj|]).
      - eapply col_field; eauto. left; eauto.
      - eapply col_inline; eauto. left; eauto.
      - eapply col_inline_on; eauto. left; eauto.
      - eapply col_spread; eauto. left; eauto. }
    destruct Hs as (j & s & Hin & Hs). eauto.
  Qed.

  Lemma nested_sound valid visit g st out st' :
    valid_sound valid -> visit_sound visit -> (forall x, In x g -> good x) -> nested_fields S valid visit g st = Some (out, st') ->
    extends st st' /\ (forall x, In x out -> good x) /\
    (clean st' -> (forall id', seen st' id' -> settled st id') /\
                  (forall x y, In x g -> below (sf_of x) y -> exists z, In z out /\ sf_of z = y)).
  Proof using no_cycles numbers agree.
    intros Hv Hw Hg E. unfold nested_fields in E.
    pose (Inv := fun (done : list fctx) (out : list fctx) (st' : mstate) =>
      extends st st' /\ (forall x, In x out -> good x) /\
      (clean st' -> (forall id', seen st' id' -> settled st id') /\
                    (forall x y, In x done -> below (sf_of x) y -> exists z, In z out /\ sf_of z = y))).
    eapply (foldM_Some _ Inv); [| |exact E].
    - split; [apply extends_refl|]. split; [intros x []|]. intros _. split; [intros; left; auto|intros x y []].
    - intros done x rest o1 s1 o2 s2 El (X1 & B1 & K1) E1. pose proof (Hg x (in_middle _ _ _ _ El)) as Gx.
      assert (Hskip : o2 = o1 -> s2 = s1 -> (forall y, below (sf_of x) y -> False) -> Inv (done ++ [x]) o2 s2).
      { intros -> -> Hno. split; auto. split; auto. intros Hc. destruct (K1 Hc) as (A1 & C1). split; auto.
        intros x0 y Hx0 Hy. apply in_app_iff in Hx0 as [Hx0|[<-|[]]]; [eauto|]. destruct (Hno y Hy). }
      assert (Hnil : forall t y, collected t [] y -> False) by (intros t y Hy; inversion Hy; subst; match goal with H : In _ [] |- _ => destruct H end).
      destruct (cx_sub x) as [|s sub] eqn:Es.
      { injection E1 as <- <-. apply Hskip; auto. intros y (t & _ & Hy). cbn in Hy. rewrite Es in Hy. eapply Hnil; eauto. }
      rewrite <- Es in E1. assert (Hne : cx_sub x <> []) by congruence.
      destruct (get_type S (tref_base (fd_type (cx_def x)))) as [t|] eqn:Et.
      2: { injection E1 as <- <-. apply Hskip; auto. intros y (t & Ht & _). cbn in Ht. congruence. }
      pose proof (good_set x Gx t Hne Et) as Hl.
      apply bind_Some in E1 as (b & s3 & E3 & E4). destruct (Hv (cx_id x) (cx_sub x) t s1 b s3) as [X3 K3]; auto; [apply visitable_lexical; auto|]. destruct b.
      + destruct (Hw (cx_id x) (cx_sub x) t (cx_frags x) o1 s3 o2 s2) as (X4 & B4 & K4); auto; [apply visitable_lexical; auto|apply good_frags; auto|].
        split; [eapply extends_trans; eauto; eapply extends_trans; eauto|]. split; [intros z Hz; destruct (B4 z Hz); auto|]. intros Hc.
        pose proof (extends_clean _ _ X4 Hc) as Hc3. pose proof (extends_clean _ _ X3 Hc3) as Hc1.
        destruct (K1 Hc1) as (A1 & C1). destruct (K3 Hc3) as (_ & Hsn & _ & A3). destruct (K4 Hc) as (A4 & I4 & C4).
        split.
        * intros id' H'. assert (Q : settled s3 id').
          { destruct (A4 id' H') as [Q|Q]; auto. right. right. exists (cx_id x). auto. }
          eapply settled_trans; [|exact A1]. eapply settled_trans; [exact Q|]. apply A3. exact Hl.
        * intros x0 y Hx0 Hy. apply in_app_iff in Hx0 as [Hx0|[<-|[]]].
          -- destruct (C1 x0 y Hx0 Hy) as (z & Hz & Ez). exists z. auto.
          -- destruct Hy as (t0 & Ht0 & Hy). cbn in Ht0, Hy. rewrite Et in Ht0. injection Ht0 as <-. auto.
      + injection E4 as <- <-. split; [eapply extends_trans; eauto|]. split; auto. intros Hc. destruct (K3 Hc) as [Hb _]. discriminate.
  Qed.

  (** what the checks of a group of fields mean *)
  Definition shape_sound (f : list fctx -> M (list merge_error)) : Prop :=
    forall g st es st', (forall x, In x g -> good x) -> f g st = Some (es, st') ->
      extends st st' /\
      (clean st' -> es = [] -> (forall id', seen st' id' -> settled st id') /\
                               (forall n x y, In x g -> In y g -> sconf n (sf_of x) (sf_of y) -> lower n)).
  Definition parents_sound (f : list fctx -> M (list merge_error)) : Prop :=
    forall g st es st', (forall x, In x g -> good x) -> f g st = Some (es, st') ->
      extends st st' /\
      (clean st' -> es = [] -> (forall id', seen st' id' -> settled st id') /\
                               (forall n x y, In x g -> In y g -> pconf n (sf_of x) (sf_of y) -> lower n)).

  Lemma collectM_sound {A} (f : A -> M (list merge_error)) l st es st' (P : A -> Prop) :
    (forall a s e s', In a l -> f a s = Some (e, s') -> extends s s' /\ (clean s' -> e = [] -> (forall id', seen s' id' -> settled s id') /\ P a)) ->
    collectM f l st = Some (es, st') ->
    extends st st' /\ (clean st' -> es = [] -> (forall id', seen st' id' -> settled st id') /\ forall a, In a l -> P a).
  Proof.
    intros Hf E. unfold collectM in E.
    pose (Inv := fun (done : list A) (es : list merge_error) (st' : mstate) =>
      extends st st' /\ (clean st' -> es = [] -> (forall id', seen st' id' -> settled st id') /\ forall a, In a done -> P a)).
    eapply (foldM_Some _ Inv); [| |exact E].
    - split; [apply extends_refl|]. intros _ _. split; [intros; left; auto|intros a []].
    - intros done a rest e1 s1 e2 s2 El [X1 K1] E1. apply bind_Some in E1 as (x & s3 & E3 & E4). injection E4 as <- <-.
      destruct (Hf a s1 x s3 (in_middle _ _ _ _ El) E3) as [X3 K3]. split; [eapply extends_trans; eauto|]. intros Hc He.
      apply app_eq_nil in He as [-> ->]. destruct (K1 (extends_clean _ _ X3 Hc) eq_refl) as [A1 B1]. destruct (K3 Hc eq_refl) as [A3 B3]. split.
      + intros id' H'. eapply settled_trans; eauto.
      + intros a0 H0. apply in_app_iff in H0 as [H0|[<-|[]]]; auto.
  Qed.

  (** a pair below one field is a pair of its selection set *)
  Lemma below_self x y z : good x -> below (sf_of x) y -> below (sf_of x) z -> sf_key y = sf_key z -> forall n, sconf n y z \/ pconf n y z -> bad n.
  Proof.
    intros G (t & Ht & Hy) (t' & Ht' & Hz) Hk n Hc. cbn in *. assert (t' = t) by congruence. subst t'.
    assert (Hne : cx_sub x <> []) by (intros E; rewrite E in Hy; inversion Hy; subst; match goal with H : In _ [] |- _ => destruct H end).
    exists (cx_id x), (cx_sub x), t, y, z. split; [apply good_set; auto|]. auto.
  Qed.

  Lemma lone_shape g x y n : (forall x, In x g -> good x) -> length g <= 1 -> In x g -> In y g -> sconf n (sf_of x) (sf_of y) -> lower n.
  Proof.
    intros Hg Hlen Hx Hy Hc. assert (E : y = x).
    { destruct g as [|a [|b g]]; cbn in Hlen; [destruct Hx| |lia]. destruct Hx as [<-|[]], Hy as [<-|[]]. auto. }
    subst y. remember (sf_of x) as s eqn:Es. inversion Hc as [n0 a b H|n0 a b x' y' Hm H]; subst.
    - exfalso. apply H. apply shape_refl.
    - exists n0. split; [lia|]. destruct Hm as (H1 & H2 & Hk). eapply below_self; eauto; [destruct H1; auto|destruct H2; auto].
  Qed.
  Lemma lone_parents g x y n : (forall x, In x g -> good x) -> length g <= 1 -> In x g -> In y g -> pconf n (sf_of x) (sf_of y) -> lower n.
  Proof.
    intros Hg Hlen Hx Hy Hc. assert (E : y = x).
    { destruct g as [|a [|b g]]; cbn in Hlen; [destruct Hx| |lia]. destruct Hx as [<-|[]], Hy as [<-|[]]. auto. }
    subst y. remember (sf_of x) as s eqn:Es. inversion Hc as [n0 a b Hmt H|n0 a b Hmt H|n0 a b x' y' Hmt Hm H]; subst.
    - congruence.
    - exfalso. apply H. cbn. apply same_refl. apply (good_args x (Hg x Hx)).
    - exists n0. split; [lia|]. destruct Hm as (H1 & H2 & Hk). eapply below_self; eauto; [destruct H1; auto|destruct H2; auto].
  Qed.

  Lemma shape_errors_nil id x rest : shape_errors S id x rest = [] -> forall y, In y (x :: rest) -> same_shape_type S (fd_type (cx_def x)) (fd_type (cx_def y)).
  Proof.
    intros E y [<-|Hy]; [apply shape_refl|]. unfold shape_errors in E. apply same_type_shape_iff.
    destruct (same_type_shape S (fd_type (cx_def x)) (fd_type (cx_def y))) eqn:Es; auto. exfalso.
    assert (Hin : In (IncompatibleTypes id x y) (shape_errors S id x rest)); [|unfold shape_errors in Hin; rewrite E in Hin; destruct Hin].
    apply in_flat_map. exists y. split; auto. rewrite Es. left; auto.
  Qed.
  Lemma parent_errors_nil id g : (forall x, In x g -> args_plain (cx_args x)) -> parent_errors id g = [] ->
    forall x y, In x g -> In y g -> cx_name x = cx_name y /\ same_value (VObj (cx_args x)) (VObj (cx_args y)).
  Proof.
    intros Hg E. destruct g as [|a rest]; [intros x y []|].
    assert (K : forall y, In y (a :: rest) -> cx_name a = cx_name y /\ same_value (VObj (cx_args a)) (VObj (cx_args y))).
    { intros y [<-|Hy]; [split; auto; apply same_refl; apply (Hg a); left; auto|].
      assert (Hn : forall e, In e (parent_errors id (a :: rest)) -> False) by (rewrite E; auto). cbn [parent_errors] in Hn.
      destruct (teqb (cx_name a) (cx_name y)) eqn:En.
      2: { exfalso. apply (Hn (DifferingNames id a y)). apply in_flat_map. exists y. rewrite En. split; [auto|left; auto]. }
      destruct (arguments_equivalent (cx_args a) (cx_args y)) eqn:Ea.
      2: { exfalso. apply (Hn (DifferingArguments id a y)). apply in_flat_map. exists y. rewrite En, Ea. split; [auto|left; auto]. }
      apply teqb_eq in En. split; auto. apply args_equivalent_iff in Ea; auto; apply Hg; [left|right]; auto. }
    intros x y Hx Hy. destruct (K x Hx), (K y Hy). split; [congruence|]. eapply same_trans; [apply same_sym; eassumption|auto].
  Qed.
  (** fields that can meet share a parent group *)
  Lemma good_parent x : good x -> ~ is_union (cx_type x) -> concrete x = true \/ abstract x = true.
  Proof. intros G Hu. pose proof (good_field x G) as Hf. unfold concrete, abstract. destruct (cx_type x); cbn in *; auto; try discriminate Hf; destruct Hu; exact I. Qed.
  Lemma parent_groups_meet g x y : In x g -> In y g -> good x -> good y -> can_meet_not_union (sf_of x) (sf_of y) -> exists pg, In pg (parent_groups g) /\ In x pg /\ In y pg.
  Proof.
    intros Hx Hy Gx Gy (Hm & Ux & Uy). cbn in Ux, Uy. apply good_parent in Ux; auto. apply good_parent in Uy; auto.
    pose (cg := groups_by (fun x => td_name (cx_type x)) (filter concrete g)).
    assert (Hcon : forall z, In z g -> concrete z = true -> exists c, In c cg /\ forall w, In w c <-> In w (filter concrete g) /\ td_name (cx_type w) = td_name (cx_type z)).
    { intros z Hz Cz. apply (groups_by_has (fun x => td_name (cx_type x))). apply filter_In. auto. }
    assert (Habs : forall z, In z g -> abstract z = true -> In z (filter abstract g)) by (intros; apply filter_In; auto).
    assert (Hgrp : forall c, In c cg -> In (c ++ filter abstract g) (parent_groups g)).
    { intros c Hc. unfold parent_groups. fold cg. destruct cg as [|c0 cs] eqn:Ecg; [destruct Hc|]. apply (in_map (fun c => c ++ filter abstract g) _ _ Hc). }
    destruct (concrete x) eqn:Cx; [|destruct Ux as [Ux|Ux]; [discriminate|]].
    - destruct (Hcon x Hx Cx) as (c & Hc & Hw). exists (c ++ filter abstract g). split; [apply (Hgrp c Hc)|].
      split; [apply in_app_iff; left; apply Hw; split; auto; apply filter_In; auto|].
      destruct (concrete y) eqn:Cy; [|destruct Uy as [Uy|Uy]; [discriminate|apply in_app_iff; auto]].
      apply in_app_iff. left. apply Hw. split; [apply filter_In; auto|]. destruct Hm as [Hm|[Hm|Hm]]; auto; exfalso; apply Hm; unfold concrete in *; cbn.
      + revert Cx. destruct (cx_type x); cbn; auto; intros; discriminate.
      + revert Cy. destruct (cx_type y); cbn; auto; intros; discriminate.
    - destruct (concrete y) eqn:Cy; [|destruct Uy as [Uy|Uy]; [discriminate|]].
      + destruct (Hcon y Hy Cy) as (c & Hc & Hw). exists (c ++ filter abstract g). split; [apply (Hgrp c Hc)|].
        split; [apply in_app_iff; auto|]. apply in_app_iff. left. apply Hw. split; auto. apply filter_In; auto.
      + destruct cg as [|c cs] eqn:Ecg.
        * exists (filter abstract g). split; [unfold parent_groups; fold cg; rewrite Ecg; left; auto|auto].
        * exists (c ++ filter abstract g). split; [apply Hgrp; left; auto|]. split; apply in_app_iff; auto.
  Qed.

  Notation sv := (set_valid S d ord).
  Notation vf := (visit_fields S d ord).
  Notation sh := (same_shape S d ord).
  Notation sp := (same_parents S d ord).

  Lemma in_some_group nested gs x y : (forall g, In g gs <-> In g (groups_by cx_key nested)) -> In x nested -> In y nested -> cx_key x = cx_key y -> exists g, In g gs /\ In x g /\ In y g.
  Proof.
    intros Hgs Hx Hy Hk. destruct (groups_by_has cx_key nested x Hx) as (g & Hg & Hw). exists g. split; [apply Hgs; auto|]. split; apply Hw; auto.
  Qed.
  Lemma group_good nested gs : (forall g, In g gs <-> In g (groups_by cx_key nested)) -> (forall x, In x nested -> good x) -> forall g, In g gs -> forall x, In x g -> good x.
  Proof. intros Hgs Hn g Hg x Hx. apply Hgs, groups_by_In in Hg as (k & _ & Hk). apply Hk in Hx. apply Hn. tauto. Qed.
  Lemma same_cache_extends st st' : ms_cache st' = ms_cache st -> extends st st'.
  Proof. intros E id es H. rewrite E. exact H. Qed.
  Lemma same_cache_seen st st' id : ms_cache st' = ms_cache st -> seen st' id -> seen st id.
  Proof. unfold seen. intros ->. auto. Qed.

  (** the fields below a group, grouped and checked by [f] *)
  Lemma below_group_sound fuel (f : list fctx -> M (list merge_error)) g st es st' (R : nat -> sfield -> sfield -> Prop) :
    valid_sound (sv fuel) -> visit_sound (vf fuel) ->
    (forall g st es st', (forall x, In x g -> good x) -> f g st = Some (es, st') ->
      extends st st' /\ (clean st' -> es = [] -> (forall id', seen st' id' -> settled st id') /\ (forall n x y, In x g -> In y g -> R n (sf_of x) (sf_of y) -> lower n))) ->
    (forall x, In x g -> good x) ->
    (let! nested := nested_fields S (sv fuel) (vf fuel) g in let! gs := in_some_order ord (groups_by cx_key nested) in collectM f gs) st = Some (es, st') ->
    extends st st' /\
    (clean st' -> es = [] -> (forall id', seen st' id' -> settled st id') /\
       (forall n x y x' y', In x g -> In y g -> merged S d (sf_of x) (sf_of y) x' y' -> R n x' y' -> lower n)).
  Proof using ord_In no_cycles numbers agree.
    intros Hv Hw Hf Hg E. apply bind_Some in E as (nested & s1 & E1 & E). apply bind_Some in E as (gs & s2 & E2 & E3).
    destruct (nested_sound _ _ _ _ _ _ Hv Hw Hg E1) as [X1 K1]. destruct (order_Some ord ord_In _ _ _ _ E2) as [Hgs Ec].
    pose proof (same_cache_extends _ _ Ec) as X2.
    destruct K1 as [G1 K1].
    destruct (collectM_sound f gs s2 es st' (fun g => forall n x y, In x g -> In y g -> R n (sf_of x) (sf_of y) -> lower n)) as [X3 K3]; auto.
    { intros a s e s' Ha Ea. apply (Hf a s e s'); auto. eapply group_good; eauto. }
    split; [exact (extends_trans _ _ _ X1 (extends_trans _ _ _ X2 X3))|].
    intros Hc He. pose proof (extends_clean _ _ X3 Hc) as Hc2. pose proof (extends_clean _ _ X2 Hc2) as Hc1.
    destruct (K1 Hc1) as (A1 & C1). destruct (K3 Hc He) as (A3 & B3). split.
    - intros id' H'. eapply settled_trans; [apply (A3 id' H')|]. intros i Hi. apply A1. eapply same_cache_seen; eauto.
    - intros n x y x' y' Hx Hy (H1 & H2 & Hk) HR.
      assert (Z1 : exists z, In z nested /\ sf_of z = x') by (destruct H1; [apply (C1 x)|apply (C1 y)]; auto).
      assert (Z2 : exists z, In z nested /\ sf_of z = y') by (destruct H2; [apply (C1 x)|apply (C1 y)]; auto).
      destruct Z1 as (z1 & Hz1 & <-). destruct Z2 as (z2 & Hz2 & <-).
      destruct (in_some_group nested gs z1 z2 Hgs Hz1 Hz2 Hk) as (g' & Hg' & Hin1 & Hin2). exact (B3 g' Hg' n z1 z2 Hin1 Hin2 HR).
  Qed.

  Lemma rule_sound fuel : valid_sound (sv fuel) /\ visit_sound (vf fuel) /\ (forall id, shape_sound (sh fuel id)) /\ (forall id, parents_sound (sp fuel id)).
  Proof using ord_In no_cycles numbers agree.
    induction fuel as [|fuel (IHv & IHw & IHs & IHp)]; [repeat split; intros; discriminate|]. split; [|split; [|split]].
    - intros id sels t st b st' Hvis E. cbn [set_valid] in E. destruct (lookup id (ms_cache st)) as [es|] eqn:El.
      { injection E as <- <-. split; [apply extends_refl|]. intros Hc. split; [apply is_nil_spec; eapply Hc; eauto|]. split; [unfold seen; congruence|].
        split; [intros id' H; left; left; auto|]. intros _ id' H; left; auto. }
      apply bind_Some in E as (fields & s1 & E1 & E). apply bind_Some in E as (gs & s2 & E2 & E). apply bind_Some in E as (es & s3 & E3 & E). injection E as <- <-.
      set (st0 := insert id [] st) in *.
      destruct (IHw id sels t [] [] st0 fields s1 Hvis (frags_ok_nil d _) E1) as (X1 & G1 & K1).
      destruct (order_Some ord ord_In _ _ _ _ E2) as [Hgs Ec]. pose proof (same_cache_extends _ _ Ec) as X2.
      assert (Gf : forall x, In x fields -> good x) by (intros x Hx; destruct (G1 x Hx) as [[]|]; auto).
      destruct (collectM_sound (fun g => let! e1 := sh fuel id g in let! e2 := sp fuel id g in ret (e1 ++ e2)) gs s2 es s3
                  (fun g => forall n x y, In x g -> In y g -> sconf n (sf_of x) (sf_of y) \/ pconf n (sf_of x) (sf_of y) -> lower n)) as [X3 K3]; auto.
      { intros g s e s' Hg Eg. pose proof (group_good fields gs Hgs Gf g Hg) as Gg. apply bind_Some in Eg as (e1 & s4 & E4 & Eg). apply bind_Some in Eg as (e2 & s5 & E5 & Eg).
        injection Eg as <- <-. destruct (IHs id g s e1 s4 Gg E4) as [X4 K4]. destruct (IHp id g s4 e2 s5 Gg E5) as [X5 K5].
        split; [eapply extends_trans; eauto|]. intros Hc He. apply app_eq_nil in He as [-> ->].
        destruct (K4 (extends_clean _ _ X5 Hc) eq_refl) as [A4 B4]. destruct (K5 Hc eq_refl) as [A5 B5]. split.
        - intros id' H'. eapply settled_trans; eauto.
        - intros n x y Hx Hy [H|H]; [exact (B4 n x y Hx Hy H)|exact (B5 n x y Hx Hy H)]. }
      assert (X03 : extends st0 s3) by exact (extends_trans _ _ _ X1 (extends_trans _ _ _ X2 X3)).
      assert (X : extends st (insert id es s3)).
      { intros i e Hi. destruct (set_id_dec i id) as [->|Hn]; [congruence|]. rewrite lookup_insert_other; auto. apply X03. subst st0. rewrite lookup_insert_other; auto. }
      split; auto. intros Hc. assert (Ees : es = []) by (apply (Hc id); apply lookup_insert). subst es.
      assert (Hid3 : lookup id (ms_cache s3) = Some []) by (apply X03; apply lookup_insert).
      assert (Hc3 : clean s3).
      { intros i e Hi. destruct (set_id_dec i id) as [->|Hn]; [congruence|]. apply (Hc i). rewrite lookup_insert_other; auto. }
      pose proof (extends_clean _ _ X3 Hc3) as Hc2. pose proof (extends_clean _ _ X2 Hc2) as Hc1.
      destruct (K1 Hc1) as (A1 & _ & C1). destruct (K3 Hc3 eq_refl) as (A3 & B3).
      destruct Hvis as (t' & Hl & He).
      assert (Hseen : forall i, seen (insert id [] s3) i -> seen s3 i).
      { intros i Hi. destruct (set_id_dec i id) as [->|Hn]; [unfold seen; congruence|]. unfold seen in *. rewrite lookup_insert_other in Hi; auto. }
      assert (Hseen0 : forall i, seen st0 i -> i = id \/ seen st i).
      { intros i Hi. destruct (set_id_dec i id) as [->|Hn]; auto. right. unfold seen in *. subst st0. rewrite lookup_insert_other in Hi; auto. }
      assert (Hall : forall i, seen (insert id [] s3) i -> settled st i \/ covered i id).
      { intros i Hi. apply Hseen in Hi. assert (Q : settled st0 i \/ covered i id).
        { eapply settled_step; [left; apply (A3 i Hi)|]. intros i' Hi'. apply A1. eapply same_cache_seen; eauto. }
        destruct Q as [[Q|[Q|(i2 & Q & C)]]|Q]; auto.
        - destruct (Hseen0 i Q) as [->|Q']; [right; eapply covered_refl; eauto|left; left; auto].
        - left. right. left. auto.
        - destruct (Hseen0 i2 Q) as [->|Q']; [right; auto|left; right; right; eauto]. }
      split; auto. split; [unfold seen; rewrite lookup_insert; discriminate|]. split; auto.
      intros Hlt i Hi. destruct (Hall i Hi) as [Q|Q]; auto. right. left. eapply covered_checked; [exact Q|].
      intros s0 u0 x y n Hl0 Hx Hy Hk HR. destruct (lexical_fun S d _ _ _ Hlt _ _ Hl0) as [-> ->].
      destruct (C1 x Hx) as (z1 & Hz1 & <-). destruct (C1 y Hy) as (z2 & Hz2 & <-).
      destruct (in_some_group fields gs z1 z2 Hgs Hz1 Hz2 Hk) as (g' & Hg' & Hin1 & Hin2). exact (B3 g' Hg' n z1 z2 Hin1 Hin2 HR).
    - intros id sels t frags acc st out st' Hvis Hfr E. cbn [visit_fields] in E. eapply visit_loop_sound; eauto.
    - intros id g st es st' Hg E. cbn [same_shape] in E.
      assert (Hlone : length g <= 1 -> es = [] /\ st' = st -> extends st st' /\
        (clean st' -> es = [] -> (forall id', seen st' id' -> settled st id') /\ (forall n x y, In x g -> In y g -> sconf n (sf_of x) (sf_of y) -> lower n))).
      { intros Hlen [-> ->]. split; [apply extends_refl|]. intros _ _. split; [intros; left; auto|]. intros n x y Hx Hy. eapply lone_shape; eauto. }
      destruct g as [|x [|y g]]; [injection E as <- <-; apply Hlone; auto; cbn; lia|injection E as <- <-; apply Hlone; auto; cbn; lia|]. clear Hlone.
      destruct (shape_errors S id x (y :: g)) as [|e0 l0] eqn:En; cbn [is_nil] in E.
      + pose proof (shape_errors_nil id x (y :: g) En) as Hsh.
        destruct (below_group_sound fuel (sh fuel id) (x :: y :: g) st es st' sconf IHv IHw (IHs id) Hg E) as [X K]. split; auto. intros Hc He.
        destruct (K Hc He) as [A B]. split; auto. intros n a b Ha Hb Hconf. remember (sf_of a) as sa eqn:Ea. remember (sf_of b) as sb eqn:Eb.
        destruct Hconf as [n x' y' H|n x' y' x2 y2 Hm H]; subst.
        * exfalso. apply H. cbn. eapply shape_trans; [apply shape_sym; apply Hsh; exact Ha|apply Hsh; exact Hb].
        * apply (lower_le n (1 + n)); [lia|]. eapply B; [exact Ha|exact Hb|exact Hm|exact H].
      + injection E as <- <-. split; [apply extends_refl|]. intros _ He. discriminate.
    - intros id g st es st' Hg E. cbn [same_parents] in E.
      assert (Hlone : length g <= 1 -> es = [] /\ st' = st -> extends st st' /\
        (clean st' -> es = [] -> (forall id', seen st' id' -> settled st id') /\ (forall n x y, In x g -> In y g -> pconf n (sf_of x) (sf_of y) -> lower n))).
      { intros Hlen [-> ->]. split; [apply extends_refl|]. intros _ _. split; [intros; left; auto|]. intros n x y Hx Hy. eapply lone_parents; eauto. }
      destruct g as [|x [|y g]]; [injection E as <- <-; apply Hlone; auto; cbn; lia|injection E as <- <-; apply Hlone; auto; cbn; lia|]. clear Hlone.
      set (gg := x :: y :: g) in *. apply bind_Some in E as (pgs & s1 & E1 & E).
      destruct (order_Some ord ord_In _ _ _ _ E1) as [Hpgs Ec]. pose proof (same_cache_extends _ _ Ec) as X1.
      assert (Hpg : forall pg, In pg pgs -> forall z, In z pg -> good z) by (intros pg Hin z Hz; apply Hg; apply Hpgs in Hin; eapply parent_groups_incl; eauto).
      match type of E with collectM ?f _ _ = _ =>
        destruct (collectM_sound f pgs s1 es st'
          (fun pg => forall n a b, In a pg -> In b pg -> pconf n (sf_of a) (sf_of b) -> lower n)) as [X K]; auto end.
      { intros pg s e s' Hin Eg. destruct (parent_errors id pg) as [|e0 l0] eqn:En; cbn [is_nil] in Eg.
        - pose proof (parent_errors_nil id pg (fun z Hz => good_args z (Hpg pg Hin z Hz)) En) as Hsame.
          destruct (below_group_sound fuel (sp fuel id) pg s e s' pconf IHv IHw (IHp id) (Hpg pg Hin) Eg) as [X K]. split; auto. intros Hc He.
          destruct (K Hc He) as [A B]. split; auto. intros n a b Ha Hb Hconf. remember (sf_of a) as sa eqn:Ea. remember (sf_of b) as sb eqn:Eb.
          destruct Hconf as [n x' y' Hmt H|n x' y' Hmt H|n x' y' x2 y2 Hmt Hm H]; subst.
          + exfalso. apply H. cbn. apply (Hsame a b Ha Hb).
          + exfalso. apply H. cbn. apply (Hsame a b Ha Hb).
          + apply (lower_le n (1 + n)); [lia|]. eapply B; [exact Ha|exact Hb|exact Hm|exact H].
        - injection Eg as <- <-. split; [apply extends_refl|]. intros _ He. discriminate. }
      split; [eapply extends_trans; eauto|]. intros Hc He. destruct (K Hc He) as [A B]. split.
      + intros id' H'. destruct (A id' H') as [Q|[Q|(i2 & Q & C)]]; [left; eapply same_cache_seen; eauto|right; left; auto|].
        right. right. exists i2. split; auto. eapply same_cache_seen; eauto.
      + intros n a b Ha Hb Hconf.
        assert (Hmt : can_meet_not_union (sf_of a) (sf_of b)) by (destruct Hconf; auto).
        destruct (parent_groups_meet gg a b Ha Hb (Hg a Ha) (Hg b Hb) Hmt) as (pg & Hpg' & Hia & Hib). exact (B pg (proj2 (Hpgs pg) Hpg') n a b Hia Hib Hconf).
  Qed.

  Lemma run_sound fuel st' : merging_run S d ord fuel = Some st' -> clean st' -> forall id sels t, lexical id sels t -> checked id.
  Proof using ord_In no_cycles numbers agree.
    unfold merging_run. destruct (foldM _ _ _ _) as [[b st]|] eqn:E; [|discriminate]. intros H Hc. injection H as ->.
    set (st0 := {| ms_cache := []; ms_tick := 0 |}) in *.
    pose (Inv := fun (done : list (set_id * list selection * tdef)) (_ : bool) (s : mstate) =>
      extends st0 s /\ (clean s -> (forall e, In e done -> seen s (fst (fst e))) /\ forall id, seen s id -> checked id)).
    assert (K : Inv (document_sets S d) b st').
    { eapply (foldM_Some _ Inv); [| |exact E].
      - split; [apply extends_refl|]. intros _. split; [intros e []|]. intros id Hid. destruct Hid. reflexivity.
      - intros done e rest b1 s1 b2 s2 El [X1 K1] E1. pose proof (document_sets_lexical S d e (in_middle _ _ _ _ El)) as Hl.
        destruct (proj1 (rule_sound fuel) _ _ _ _ _ _ (visitable_lexical _ _ _ Hl) E1) as [X2 K2].
        split; [eapply extends_trans; eauto|]. intros Hc2. destruct (K1 (extends_clean _ _ X2 Hc2)) as [A1 B1]. destruct (K2 Hc2) as (_ & Hs & _ & A2). split.
        + intros e' He'. apply in_app_iff in He' as [He'|[<-|[]]]; auto. eapply extends_seen; eauto.
        + intros id Hid. destruct (A2 Hl id Hid) as [Q|[Q|(i2 & Q & C)]]; auto. exact (covered_checked _ _ C (B1 i2 Q)). }
    destruct K as [_ K]. destruct (K Hc) as [A B]. intros id sels t Hl. apply B. apply (A (id, sels, t)). apply (proj1 (lexical_document_sets S d id sels t Hl)).
  Qed.

  Lemma never_bad fuel st' : merging_run S d ord fuel = Some st' -> clean st' -> forall n, ~ bad n.
  Proof using ord_In no_cycles numbers agree.
    intros E Hc n. induction n as [n IH] using lt_wf_ind. intros (id & sels & t & x & y & Hl & Hx & Hy & Hk & HR).
    destruct (run_sound fuel st' E Hc id sels t Hl sels t x y n Hl Hx Hy Hk HR) as (m & Hm & B). apply (IH m Hm B).
  Qed.

  Lemma lookup_In id es l : In (id, es) l -> exists es', lookup id l = Some es'.
  Proof. induction l as [|[i e] l IH]; cbn; [tauto|]. intros [H|H]; destruct (set_id_dec id i); eauto. injection H as -> ->. congruence. Qed.
  Lemma lookup_Some id es l : lookup id l = Some es -> In (id, es) l.
  Proof. induction l as [|[i e] l IH]; cbn; [discriminate|]. destruct (set_id_dec id i) as [->|]; auto. intros E. injection E as ->. auto. Qed.
  Lemma no_errors_clean st : flat_map snd (ms_cache st) = [] -> clean st.
  Proof.
    intros E id es H. apply lookup_Some in H. destruct es as [|e es]; auto. exfalso.
    assert (Hin : In e (flat_map snd (ms_cache st))) by (apply in_flat_map; exists (id, e :: es); split; auto; left; auto). rewrite E in Hin. destruct Hin.
  Qed.

  Lemma rule_sound_document : merging_errors S d ord = Some [] -> document_can_merge S d can_meet_not_union.
  Proof using ord_In no_cycles numbers agree.
    unfold merging_errors. destruct (merging_run S d ord (merging_fuel d)) as [st|] eqn:E; [|discriminate]. intros H. injection H as H.
    apply no_errors_clean in H. pose proof (never_bad _ _ E H) as Hnb. intros r t sels Hs x y Hx Hy Hk.
    destruct (set_at_lexical S d _ _ _ Hs) as [p Hl]. split; intros Hc.
    - apply sconf_iff in Hc as [n Hc]. apply (Hnb n). exists (r, p), sels, t, x, y. auto 10.
    - apply pconf_iff in Hc as [n Hc]. apply (Hnb n). exists (r, p), sels, t, x, y. auto 10.
  Qed.
End Sound.
