From Verif Require Import Base Ast Graph InputCycles InputCyclesSpec.

Section Proofs.
  Variable S : schema.
  Variable target : name.
  Let U := map td_name (s_types S).
  Lemma in_U n t : get_type S n = Some t -> In n U.
  Proof. intros H. apply get_type_Some in H as [H1 <-]. apply in_map; auto. Qed.

  Lemma visit_spec : (exists dt, get_type S target = Some (DInput dt)) ->
    forall fuel n d circ enc, get_type S n = Some (DInput d) ->
    unvisited text_dec U enc < fuel ->
    exists circ' enc', visit_circular S fuel target (io_fields d) (circ, enc) = Some (circ', enc') /\
      incl enc enc' /\ incl circ circ' /\
      (forall t, In t circ' -> In t circ \/ (t = TBase target true /\ plus (requires S) n target)) /\
      (forall m, requires S n m -> (m = target -> circ' <> []) /\ (m <> target -> In m enc')) /\
      (forall x m, In x enc' -> ~ In x enc -> requires S x m -> (m = target -> circ' <> []) /\ (m <> target -> In m enc')).
  Proof.
    intros (dt & Hdt). induction fuel as [|fuel IH]; intros n d circ enc Hn Hf; [lia|].
    cbn [visit_circular].
    match goal with |- context [fold_left ?F _ _] => set (G := F) end.
    assert (Hgen : forall l c e, incl enc e -> incl circ c -> (forall f, In f l -> In f (io_fields d)) ->
      (forall t, In t c -> In t circ \/ (t = TBase target true /\ plus (requires S) n target)) ->
      (forall x m, In x e -> ~ In x enc -> requires S x m -> (m = target -> c <> []) /\ (m <> target -> In m e)) ->
      exists c' e', fold_left G l (Some (c, e)) = Some (c', e') /\ incl e e' /\ incl c c' /\
        (forall t, In t c' -> In t circ \/ (t = TBase target true /\ plus (requires S) n target)) /\
        (forall f m dm, In f l -> iv_type f = TBase m true -> get_type S m = Some (DInput dm) ->
             (m = target -> c' <> []) /\ (m <> target -> In m e')) /\
        (forall x m, In x e' -> ~ In x enc -> requires S x m -> (m = target -> c' <> []) /\ (m <> target -> In m e'))).
    { assert (Hne : forall (c c' : list tref), incl c c' -> c <> [] -> c' <> []).
      { intros c c' Hi Hn0. destruct c as [|x c]; [congruence|]. intros ->. apply (Hi x). left; auto. }
      induction l as [|f l IHl]; intros c e He Hc Hl Hsound Hcl; cbn [fold_left].
      - exists c, e. split; [reflexivity|]. split; [apply incl_refl|]. split; [apply incl_refl|]. split; [exact Hsound|]. split; [intros f m dm []|exact Hcl].
      - assert (Hl' : forall f', In f' l -> In f' (io_fields d)) by (intros; apply Hl; right; auto).
        (* common continuation *)
        assert (Hk : forall c1 e1, G (Some (c, e)) f = Some (c1, e1) -> incl e e1 -> incl c c1 ->
                (forall t, In t c1 -> In t circ \/ (t = TBase target true /\ plus (requires S) n target)) ->
                (forall m dm, iv_type f = TBase m true -> get_type S m = Some (DInput dm) ->
                     (m = target -> c1 <> []) /\ (m <> target -> In m e1)) ->
                (forall x m, In x e1 -> ~ In x enc -> requires S x m -> (m = target -> c1 <> []) /\ (m <> target -> In m e1)) ->
                exists c' e', fold_left G l (G (Some (c, e)) f) = Some (c', e') /\ incl e e' /\ incl c c' /\
        (forall t, In t c' -> In t circ \/ (t = TBase target true /\ plus (requires S) n target)) /\
        (forall f0 m dm, In f0 (f :: l) -> iv_type f0 = TBase m true -> get_type S m = Some (DInput dm) ->
             (m = target -> c' <> []) /\ (m <> target -> In m e')) /\
        (forall x m, In x e' -> ~ In x enc -> requires S x m -> (m = target -> c' <> []) /\ (m <> target -> In m e'))).
        { intros c1 e1 HG H1 H2 H3 H4 H5. rewrite HG.
          destruct (IHl c1 e1) as (c' & e' & Hr & R1 & R2 & R3 & R4 & R5); auto.
          { eapply incl_tran; eauto. } { eapply incl_tran; eauto. }
          exists c', e'. split; [exact Hr|]. split; [eapply incl_tran; eauto|].
          split; [eapply incl_tran; eauto|]. split; [exact R3|]. split; [|exact R5].
          intros f0 m dm [<-|Hin] Ht Hg; [|eapply R4; eauto].
          destruct (H4 m dm Ht Hg) as [K1 K2]. split; intros K; [|apply R1; auto].
          eapply Hne; [exact R2|auto]. }
        assert (Hskip : G (Some (c, e)) f = Some (c, e) ->
                 (forall m dm, iv_type f = TBase m true -> get_type S m = Some (DInput dm) ->
                     (m = target -> c <> []) /\ (m <> target -> In m e)) ->
                 exists c' e', fold_left G l (G (Some (c, e)) f) = Some (c', e') /\ incl e e' /\ incl c c' /\
        (forall t, In t c' -> In t circ \/ (t = TBase target true /\ plus (requires S) n target)) /\
        (forall f0 m dm, In f0 (f :: l) -> iv_type f0 = TBase m true -> get_type S m = Some (DInput dm) ->
             (m = target -> c' <> []) /\ (m <> target -> In m e')) /\
        (forall x m, In x e' -> ~ In x enc -> requires S x m -> (m = target -> c' <> []) /\ (m <> target -> In m e'))).
        { intros HG H4. apply (Hk c e HG); auto using incl_refl. }
        destruct (iv_type f) as [inner [|]|inner r] eqn:Et.
        + destruct (teqb inner target) eqn:Eq.
          * apply teqb_eq in Eq. subst inner.
            apply (Hk (c ++ [TBase target true]) e).
            -- unfold G. rewrite Et, teqb_refl. reflexivity.
            -- apply incl_refl.
            -- apply incl_appl, incl_refl.
            -- intros t Ht. apply in_app_or in Ht as [Ht|[<-|[]]]; auto. right. split; auto.
               constructor. exists d, f, dt. repeat split; auto. apply Hl. left; auto.
            -- intros m dm [= ->] Hg. split; [|congruence]. intros _ Habs. destruct c; discriminate.
            -- intros x m Hx Hnx Hr. destruct (Hcl x m Hx Hnx Hr) as [K1 K2]. split; auto.
               intros _ Habs. destruct c; discriminate.
          * pose proof (proj1 (teqb_neq _ _) Eq) as Hneq.
            destruct (get_type S inner) as [[| | |di| | |]|] eqn:Eg;
              try (apply Hskip; [unfold G; rewrite Et, Eq, Eg; reflexivity | intros m dm [= <-]; congruence]).
            destruct (mem text_dec inner e) eqn:Em.
            -- apply Hskip; [unfold G; rewrite Et, Eq, Eg, Em; reflexivity|].
               intros m dm [= <-] _. apply mem_In in Em. split; [congruence|auto].
            -- apply mem_false in Em as Hnin.
               destruct (IH inner di c (inner :: e) Eg) as (c1 & e1 & Hr & R1 & R2 & R3 & R4 & R5).
               { pose proof (unvisited_cons text_dec U e inner (in_U _ _ Eg) Hnin).
                 pose proof (unvisited_mono text_dec U enc e He). lia. }
               assert (Hedge : requires S n inner).
               { exists d, f, di. repeat split; auto. apply Hl. left; auto. }
               apply (Hk c1 e1).
               ++ unfold G. rewrite Et, Eq, Eg, Em. exact Hr.
               ++ intros x Hx. apply R1. right; auto.
               ++ auto.
               ++ intros t Ht. destruct (R3 t Ht) as [Hin|[-> Hp]]; auto. right. split; auto.
                  eapply plus_step; eauto.
               ++ intros m dm [= <-] _. split; [congruence|]. intros _. apply R1. left; auto.
               ++ intros x m Hx Hnx Hre. destruct (in_dec text_dec x (inner :: e)) as [[<-|Hin]|Hnotin].
                  ** eapply R4; eauto.
                  ** destruct (Hcl x m Hin Hnx Hre) as [K1 K2]. split; intros K; [|apply R1; right; auto].
                     eapply Hne; [exact R2|auto].
                  ** eapply R5; eauto.
        + apply Hskip; [unfold G; rewrite Et; reflexivity | intros m dm H; discriminate].
        + apply Hskip; [unfold G; rewrite Et; reflexivity | intros m dm H; discriminate]. }
    destruct (Hgen (io_fields d) circ enc) as (c' & e' & Hr & R1 & R2 & R3 & R4 & R5); auto using incl_refl.
    { intros x m H1 H2. contradiction. }
    exists c', e'. repeat (split; [assumption|]). split; [|exact R5].
    intros m (dn & f & dm & G1 & G2 & G3 & G4). rewrite Hn in G1. injection G1 as <-. eapply R4; eauto.
  Qed.

  Lemma input_object_error_spec d : get_type S target = Some (DInput d) -> io_name d = target ->
    (requires_itself S target <-> exists refs, input_object_error S d = Some (Some refs) /\ refs <> [] /\
                                               forall t, In t refs -> t = TBase target true) /\
    (~ requires_itself S target <-> input_object_error S d = Some None).
  Proof.
    intros Hd Hname. unfold input_object_error. rewrite Hname.
    destruct (visit_spec (ex_intro _ d Hd) (Datatypes.S (length (s_types S))) target d [] [] Hd)
      as (c & e & Hr & R1 & R2 & R3 & R4 & R5).
    { pose proof (unvisited_le text_dec U []). unfold U in *. rewrite map_length in *. lia. }
    rewrite Hr.
    assert (Hiff : requires_itself S target <-> c <> []).
    { split.
      - intros Hp. apply plus_inv_star in Hp as (b & Hb & Hp).
        assert (Hinv : (b = target -> c <> []) /\ (b <> target -> In b e)) by (apply R4; auto).
        clear Hb. remember target as tg eqn:Etg in Hp. revert Hinv.
        induction Hp as [a|a b c0 Hab Hbc IH]; intros [K1 K2].
        + auto.
        + destruct (text_dec a target) as [Ea|Ea]; [auto|].
          apply IH; auto. eapply R5; eauto.
      - intros Hne. destruct c as [|t c]; [congruence|].
        destruct (R3 t (or_introl eq_refl)) as [[]|[_ Hp]]. exact Hp. }
    rewrite Hiff. destruct c as [|t c].
    - split; split.
      + congruence.
      + intros (refs & H & _). discriminate.
      + reflexivity.
      + intros _ H. congruence.
    - split; split; [|discriminate| |discriminate].
      + intros _. exists (t :: c). split; [reflexivity|]. split; [discriminate|]. intros t' Ht'. destruct (R3 t' Ht') as [[]|[-> _]]; auto.
      + intros H. exfalso. apply H. discriminate.
  Qed.
End Proofs.

Lemma circular_reference_errors_iff S n :
  NoDup (map td_name (s_types S)) ->
  (exists refs, In (n, refs) (circular_reference_errors S)) <-> requires_itself S n.
Proof.
  intros Hnd.
  assert (Hget : forall t, In t (s_types S) -> get_type S (td_name t) = Some t).
  { intros t Ht. unfold get_type. clear -Hnd Ht. induction (s_types S) as [|u l IH]; [destruct Ht|].
    cbn in *. inversion Hnd as [|? ? Hni Hnd']; subst. destruct Ht as [->|Ht].
    - rewrite teqb_refl. auto.
    - destruct (teqb_spec (td_name u) (td_name t)) as [E|E]; auto.
      exfalso. apply Hni. rewrite E. apply in_map; auto. }
  split.
  - intros (refs & Hin). unfold circular_reference_errors in Hin. apply in_flat_map in Hin as (t & Ht & Hin).
    destruct t as [| | |d| | |]; try (destruct Hin; fail).
    destruct (input_object_error S d) as [[r|]|] eqn:E; try (destruct Hin; fail).
    destruct Hin as [[= <- <-]|[]]. pose proof (Hget _ Ht) as Hg.
    cbn [td_name] in Hg.
    destruct (input_object_error_spec S (io_name d) d Hg eq_refl) as [[_ K] _].
    apply K. exists r. split; auto.
    unfold input_object_error in E. destruct (visit_circular _ _ _ _ _) as [[c e]|] eqn:Ev; [|discriminate].
    destruct (visit_spec S (io_name d) (ex_intro _ d Hg) (Datatypes.S (length (s_types S))) (io_name d) d [] [] Hg)
      as (c2 & e2 & Hr & R1 & R2 & R3 & R4 & R5).
    { pose proof (unvisited_le text_dec (map td_name (s_types S)) []). rewrite map_length in *. lia. }
    rewrite Hr in Ev. injection Ev as -> ->. destruct c as [|t c]; [discriminate|]. injection E as <-.
    split; [discriminate|]. intros t' Ht'. destruct (R3 t' Ht') as [[]|[-> _]]; auto.
  - intros Hp.
    assert (Hd : exists d, get_type S n = Some (DInput d)).
    { apply plus_inv_star in Hp as (b & (d & f & db & H & _) & _). eauto. }
    destruct Hd as (d & Hd). apply get_type_Some in Hd as Hd'. destruct Hd' as [Hin Hname]. cbn in Hname.
    destruct (input_object_error_spec S n d Hd Hname) as [[H1 _] _].
    destruct (H1 Hp) as (refs & Hr & _). exists refs. unfold circular_reference_errors.
    apply in_flat_map. exists (DInput d). split; auto. rewrite Hr. left. congruence.
Qed.
