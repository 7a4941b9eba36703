(** Which generated types borrow; the conversion terminates. *)
From Verif Require Import Base Ast Maps Graph Doc DocSpec DocRulesSpec FragmentsSpec DocProofs DocRules DocTypingProofs DocRulesProofs
                          FragmentCycles FragmentCyclesProofs OperationProofs Json Typegen TypegenDe TypegenSpec TypegenProofs.
Local Open Scope string_scope.
Local Open Scope list_scope.

(** * The search over fragments *)
Section Search.
  Variable frags : list (name * etype).
  Definition refs_known (l : list atom) : Prop := forall n, In (ARef n) l -> exists e, assoc n frags = Some e.
  Hypothesis Hclosed : forall n e, assoc n frags = Some e -> refs_known (atoms e).
  Definition remaining (visited : list name) : nat := length (filter (fun n => negb (tmem n visited)) (map fst frags)).
  (** a true flag can be reached *)
  Inductive leads : list atom -> Prop :=
  | le_flag l : In (AFlag true) l -> leads l
  | le_ref l n e : In (ARef n) l -> assoc n frags = Some e -> leads (atoms e) -> leads l.
  Lemma leads_incl l l' : incl l l' -> leads l -> leads l'.
  Proof.
    intros Hi H. destruct H as [l H|l n e H He HL]; [apply le_flag; auto|eapply le_ref; eauto].
  Qed.
  (** what a completed search knows *)
  Definition covered (vs : list name) (l : list atom) : Prop :=
    ~ In (AFlag true) l /\ forall n, In (ARef n) l -> In n vs.
  Lemma filter_length_impl {A} (p q : A -> bool) l : (forall x, p x = true -> q x = true) -> length (filter p l) <= length (filter q l).
  Proof.
    intros H. induction l as [|x l IH]; cbn; [lia|]. destruct (p x) eqn:E.
    - rewrite (H x E). cbn. lia.
    - destruct (q x); cbn; lia.
  Qed.
  Lemma filter_length_lt {A} (p q : A -> bool) l n : (forall x, p x = true -> q x = true) -> In n l -> p n = false -> q n = true ->
    length (filter p l) < length (filter q l).
  Proof.
    intros H. induction l as [|x l IH]; intros Hin Hp Hq; [destruct Hin|]. cbn. pose proof (filter_length_impl p q l H).
    destruct Hin as [->|Hin]; [rewrite Hp, Hq; cbn; lia|]. specialize (IH Hin Hp Hq). destruct (p x) eqn:E.
    - rewrite (H x E). cbn. lia.
    - destruct (q x); cbn; lia.
  Qed.
  Lemma unvisited_true v x : negb (tmem x v) = true <-> ~ In x v.
  Proof. rewrite negb_true_iff. apply tmem_false. Qed.
  Lemma left_incl v v' : incl v v' -> remaining v' <= remaining v.
  Proof. intros Hi. apply filter_length_impl. intros x. rewrite !unvisited_true. auto. Qed.
  Lemma left_lt n v : In n (map fst frags) -> ~ In n v -> remaining (n :: v) < remaining v.
  Proof.
    intros Hin Hn. apply (filter_length_lt _ _ _ n); auto.
    - intros x. rewrite !unvisited_true. intros H Hx. apply H. right; auto.
    - apply negb_false_iff, tmem_In. left; auto.
    - apply unvisited_true; auto.
  Qed.

  Lemma type_borrows_spec fuel : forall l visited, remaining visited <= fuel -> refs_known l ->
    exists b vs, type_borrows frags fuel l visited = Built (b, vs) /\ incl visited vs /\
      (b = true -> leads l) /\
      (b = false -> covered vs l /\ forall n e, In n vs -> ~ In n visited -> assoc n frags = Some e -> covered vs (atoms e)).
  Proof.
    induction fuel as [fuel IHf] using lt_wf_ind. 
    induction l as [|a l IHl]; intros visited Hleft Hk.
    - exists false, visited. split; [destruct fuel; reflexivity|]. split; [apply incl_refl|]. split; [discriminate|]. intros _. split.
      + split; [intros []|intros ? []].
      + intros n e H1 H2. contradiction.
    - assert (Hk' : refs_known l) by (intros n Hn; apply Hk; right; auto). 
      destruct a as [b|n].
      + destruct b.
        * exists true, visited. split; [destruct fuel; reflexivity|]. split; [apply incl_refl|]. split; [|discriminate].
          intros _. apply le_flag. left; auto.
        * destruct (IHl visited Hleft Hk') as (b & vs & E & Hi & Ht & Hf). exists b, vs.
          split; [destruct fuel; exact E|]. split; auto. split.
          -- intros Hb. eapply leads_incl; [|exact (Ht Hb)]. apply incl_tl, incl_refl.
          -- intros Hb. destruct (Hf Hb) as [[C1 C2] C3]. split; auto. split; [intros [[=]|H]; auto|intros n [[=]|H]; auto].
      + destruct (tmem n visited) eqn:Em.
        * destruct (IHl visited Hleft Hk') as (b & vs & E & Hi & Ht & Hf). exists b, vs.
          split; [destruct fuel; cbn; rewrite Em; exact E|]. split; auto. split.
          -- intros Hb. eapply leads_incl; [|exact (Ht Hb)]. apply incl_tl, incl_refl.
          -- intros Hb. destruct (Hf Hb) as [[C1 C2] C3]. split; auto.
             split; [intros [[=]|H]; auto|intros m [[= ->]|H]; auto]. apply Hi, tmem_In, Em.
        * destruct (Hk n) as (e & He); [left; auto|].
          assert (Hin : In n (map fst frags)) by (apply assoc_In in He; apply (in_map fst) in He; auto).
          assert (Hnv : ~ In n visited) by (rewrite <- tmem_In; congruence).
          pose proof (left_lt n visited Hin Hnv) as Hlt.
          destruct fuel as [|fuel']; [lia|].
          destruct (IHf fuel' (Nat.lt_succ_diag_r _) (atoms e) (n :: visited)) as (b1 & vs1 & E1 & Hi1 & Ht1 & Hf1); [lia|apply (Hclosed n); auto|].
          destruct b1.
          -- exists true, vs1. cbn. rewrite Em, He. rewrite E1. cbn. split; auto. split; [intros x Hx; apply Hi1; right; auto|].
             split; [|discriminate]. intros _. eapply le_ref; [left; eauto|eauto|auto].
          -- assert (Hl1 : remaining vs1 <= Datatypes.S fuel').
             { etransitivity; [apply left_incl, Hi1|]. lia. }
             destruct (IHl vs1 Hl1 Hk') as (b & vs & E & Hi & Ht & Hf).
             exists b, vs. split; [cbn; rewrite Em, He; cbn in E; rewrite E1; cbn; exact E|].
             split; [intros x Hx; apply Hi, Hi1; right; auto|]. split.
             ++ intros Hb. eapply leads_incl; [|exact (Ht Hb)]. apply incl_tl, incl_refl.
             ++ intros Hb. destruct (Hf Hb) as [[C1 C2] C3]. destruct (Hf1 eq_refl) as [[D1 D2] D3].
                assert (Hmono : forall l, covered vs1 l -> covered vs l) by (intros l0 [A1 A2]; split; auto).
                split.
                ** split; [intros [[=]|H]; auto|intros m [[= ->]|H]; auto]. apply Hi, Hi1. left; auto.
                ** intros m em Hm Hnm Hem. destruct (in_dec text_dec m vs1) as [H1|H1].
                   --- destruct (text_dec m n) as [->|Hne].
                       +++ rewrite He in Hem. injection Hem as <-. apply Hmono. split; auto.
                       +++ apply Hmono, (D3 m); auto. intros [Hx|Hx]; congruence || contradiction.
                   --- apply (C3 m); auto.
  Qed.
  (** started with nothing visited, the search decides reachability *)
  Lemma type_borrows_exact l : refs_known l -> exists b vs,
    type_borrows frags (Datatypes.S (length frags)) l [] = Built (b, vs) /\ (b = true <-> leads l).
  Proof.
    intros Hk. destruct (type_borrows_spec (Datatypes.S (length frags)) l []) as (b & vs & E & _ & Ht & Hf); auto.
    - unfold remaining. rewrite filter_all by reflexivity. rewrite map_length. lia.
    - exists b, vs. split; auto. split; auto. intros HL. destruct b; auto. exfalso.
      destruct (Hf eq_refl) as [HC Hv]. clear - HL HC Hv. revert HC.
      induction HL as [l H|l n e H He HL IH]; intros [C1 C2]; [contradiction|].
      apply IH. apply (Hv n); auto.
  Qed.
End Search.

(** * The atoms of a converted selection set *)
Section Atoms.
  Variable S : schema.
  Variable borrow : bool.
  Variable scalar_borrows : name -> option bool.
  Notation build_selection := (build_selection S borrow scalar_borrows).
  Notation build_fields := (build_fields S borrow scalar_borrows).
  Notation build_variants := (build_variants S borrow scalar_borrows).
  Notation build_set := (build_set S borrow scalar_borrows).

  Definition leaf_flag (t : tdef) (b : bool) : Prop :=
    match t with
    | DBuiltin x => b = builtin_borrows borrow x
    | DScalar x => scalar_borrows (sc_name x) = Some b
    | DEnum _ => b = false
    | _ => False
    end.
  Inductive atom_at : tdef -> list selection -> atom -> Prop :=
  | aa_leaf t sels al n args ds sub fd t1 b :
      In (SField al n args ds sub) sels -> (forall u, t <> DUnion u) -> has_field t n fd ->
      get_type S (tref_base (fd_type fd)) = Some t1 -> leaf_flag t1 b -> atom_at t sels (AFlag b)
  | aa_sub t sels al n args ds sub fd t1 a :
      In (SField al n args ds sub) sels -> (forall u, t <> DUnion u) -> has_field t n fd ->
      get_type S (tref_base (fd_type fd)) = Some t1 -> atom_at t1 sub a -> atom_at t sels a
  | aa_inline t sels c ds sub t1 a :
      In (SInline (Some c) ds sub) sels -> get_type S c = Some t1 -> atom_at t1 sub a -> atom_at t sels a
  | aa_spread t sels n ds : In (SSpread n ds) sels -> atom_at t sels (ARef n).
  Lemma atom_at_nil t a : ~ atom_at t [] a.
  Proof. inversion 1; subst; match goal with H : In _ [] |- _ => destruct H end. Qed.
  Lemma atom_at_cons t s sels a : atom_at t (s :: sels) a <-> atom_at t [s] a \/ atom_at t sels a.
  Proof.
    split.
    - intros HA. inversion HA; subst; match goal with H : In _ (_ :: _) |- _ => destruct H as [H|H] end.
      + left. eapply aa_leaf; eauto. left; eauto.
      + right. eapply aa_leaf; eauto.
      + left. eapply aa_sub; eauto. left; eauto.
      + right. eapply aa_sub; eauto.
      + left. eapply aa_inline; eauto. left; eauto.
      + right. eapply aa_inline; eauto.
      + left. eapply aa_spread; eauto. left; eauto.
      + right. eapply aa_spread; eauto.
    - assert (G : forall l l', incl l l' -> atom_at t l a -> atom_at t l' a).
      { intros l l' Hi HA. inversion HA; subst.
        - eapply aa_leaf; eauto.
        - eapply aa_sub; eauto.
        - eapply aa_inline; eauto.
        - eapply aa_spread; eauto. }
      intros [HA|HA]; eapply G; eauto; intros x Hx; [destruct Hx as [->|[]]; left; auto|right; auto].
  Qed.

  Lemma watoms_wrap t e : watoms (wrap t e) = atoms e.
  Proof. induction t as [n r|t IH r]; cbn; destruct r; cbn; auto. Qed.

  Definition field_atoms (s : selection) : Prop :=
    forall t k w, (forall u, t <> DUnion u) -> sel_ok S t s -> build_selection (td_fields t) s = Built (k, w) ->
    forall a, In a (watoms w) <-> atom_at t [s] a.
  Lemma fields_atoms t sels fs : (forall u, t <> DUnion u) -> Forall field_atoms sels -> (forall s, In s sels -> sel_ok S t s) ->
    build_fields (td_fields t) sels = Built fs ->
    forall a, In a (flat_map (fun f => watoms (snd f)) fs) <-> atom_at t sels a.
  Proof.
    intros Hu HF Hs HB. apply bseq_Forall2 in HB. revert HF Hs. induction HB as [|s f sels fs Hsf HB IH]; intros HF Hs a.
    - cbn. split; [intros []|apply atom_at_nil].
    - cbn. rewrite in_app_iff, (atom_at_cons t s). inversion HF as [|? ? HF1 HF2]; subst. destruct f as [k w].
      rewrite (HF1 t k w Hu (Hs _ (or_introl eq_refl)) Hsf a). rewrite (IH HF2 (fun s H => Hs s (or_intror H)) a). cbn. tauto.
  Qed.
  Definition deep_atoms (s : selection) : Prop :=
    field_atoms s /\ match s with SInline _ _ sub => Forall field_atoms sub | _ => True end.
  Lemma set_atoms p t sels e : Forall deep_atoms sels -> (forall s, In s sels -> sel_ok S t s) -> td_composite t = true ->
    build_set p t sels = Built e -> forall a, In a (atoms e) <-> atom_at t sels a.
  Proof.
    intros HF Hs Hc HB.
    assert (HF1 : Forall field_atoms sels) by (eapply Forall_impl; [|exact HF]; intros s [H _]; exact H).
    assert (Hspread : forall n, find_map sel_spread sels = Some n -> length sels = 1 -> forall a, In a [ARef n] <-> atom_at t sels a).
    { intros n En El a. apply find_map_Some in En as (s & Hin & E). destruct s as [|n' ds|]; try discriminate. cbn in E. injection E as ->.
      destruct sels as [|s [|]]; try discriminate. destruct Hin as [->|[]]. split.
      - intros [<-|[]]. eapply aa_spread. left; eauto.
      - inversion 1; subst; match goal with H : In _ [_] |- _ => destruct H as [H|[]]; inversion H; subst end. left; auto. }
    unfold Typegen.build_set, build_base in HB. destruct t as [| |o| | |u|i]; try discriminate.
    - destruct sels as [|s0 sels]; [discriminate|]. unfold spread_or in HB. destruct (find_map sel_spread (s0 :: sels)) eqn:E.
      + destruct (Nat.eqb_spec (length (s0 :: sels)) 1) as [El|]; [|discriminate]. injection HB as <-. apply Hspread; auto.
      + apply bmap_Built in HB as (fs & HB & ->). cbn [atoms]. apply (fields_atoms (DObject o)); auto. discriminate.
    - destruct sels as [|s0 sels]; [discriminate|]. unfold spread_or in HB. destruct (find_map sel_spread (s0 :: sels)) eqn:E.
      + destruct (Nat.eqb_spec (length (s0 :: sels)) 1) as [El|]; [|discriminate]. injection HB as <-. apply Hspread; auto.
      + apply bmap_Built in HB as (vs & HB & ->). cbn [atoms].
        pose proof (find_map_None _ _ E) as Hns. clear E Hspread Hc HF1.
        revert vs HB. induction (s0 :: sels) as [|s l IH]; intros vs HB a.
        * cbn in HB. injection HB as <-. cbn. split; [intros []|apply atom_at_nil].
        * assert (Hnext : forall vs, build_variants u l = Built vs -> forall a,
              In a (flat_map (fun v => flat_map (fun f => watoms (snd f)) (snd v)) vs) <-> atom_at (DUnion u) l a).
          { apply IH.
            - inversion HF; auto.
            - intros; apply Hs; right; auto.
            - intros; apply Hns; right; auto. }
          clear IH. rewrite (atom_at_cons (DUnion u) s). destruct s as [al n args ds sub|n ds|c ds sub].
          -- cbn in HB. rewrite (Hnext _ HB). split; auto. intros [HA|HA]; auto. exfalso.
             inversion HA; subst; match goal with H : In _ [_] |- _ => destruct H as [H|[]]; inversion H; subst end;
               match goal with H : forall u', DUnion u <> DUnion u' |- _ => apply (H u eq_refl) end.
          -- specialize (Hns _ (or_introl eq_refl)). discriminate.
          -- cbn in HB. apply bbind_Built in HB as ([m fds] & Hv & HB). apply bbind_Built in HB as (fs & Hfs & HB).
             apply bmap_Built in HB as (vs' & HB & ->). cbn. rewrite in_app_iff, (Hnext _ HB). cbn in Hfs.
             unfold variant_fields in Hv. destruct c as [c|]; [|discriminate]. destruct (tmem c (un_members u)); [|discriminate].
             destruct (get_type S c) as [[| |o| | | |]|] eqn:Eg; try discriminate. injection Hv as <- <-.
             inversion HF as [|? ? [_ HF1] _]; subst.
             assert (Hso : forall s, In s sub -> sel_ok S (DObject o) s).
             { specialize (Hs _ (or_introl eq_refl)). inversion Hs; subst.
               match goal with K : get_type S c = Some ?x, K' : get_type S c = Some ?y |- _ => rewrite K in K'; injection K' as <- end. auto. }
             rewrite (fields_atoms (DObject o) sub fs); auto; [|discriminate]. split.
             ++ intros [HA|HA]; auto. left. eapply aa_inline; [left; reflexivity|exact Eg|exact HA].
             ++ intros [HA|HA]; auto. left. inversion HA; subst; match goal with H : In _ [_] |- _ => destruct H as [H|[]]; inversion H; subst end.
                match goal with K : get_type S _ = Some ?x |- _ => rewrite Eg in K; injection K as <- end. auto.
    - destruct sels as [|s0 sels]; [discriminate|]. unfold spread_or in HB. destruct (find_map sel_spread (s0 :: sels)) eqn:E.
      + destruct (Nat.eqb_spec (length (s0 :: sels)) 1) as [El|]; [|discriminate]. injection HB as <-. apply Hspread; auto.
      + apply bmap_Built in HB as (fs & HB & ->). cbn [atoms]. apply (fields_atoms (DInterface i)); auto. discriminate.
  Qed.

  Lemma leaf_flag_fun t b b' : leaf_flag t b -> leaf_flag t b' -> b = b'.
  Proof. destruct t; cbn; intros; try contradiction; congruence. Qed.
  Lemma all_atoms s : deep_atoms s.
  Proof.
    induction s as [al n args ds sub IH|n ds|c ds sub IH] using selection_ind'.
    - split; [|exact I]. intros t k w Hu Hok HB a. rewrite build_field_eq in HB.
      destruct (get_field (td_fields t) n) as [fd|] eqn:Ef; [|discriminate].
      destruct (get_type S (tref_base (fd_type fd))) as [t1|] eqn:Et; [|discriminate].
      apply bmap_Built in HB as (e & HB & [= -> ->]). rewrite watoms_wrap.
      assert (Hgoal : (In a (atoms e) <-> (exists b, a = AFlag b /\ leaf_flag t1 b) \/ atom_at t1 sub a) ->
                      (In a (atoms e) <-> atom_at t [SField al n args ds sub] a)).
      { intros ->. split.
        - intros [(b & -> & Hb)|HA]; [eapply aa_leaf|eapply aa_sub]; eauto; left; reflexivity.
        - intros HA. inversion HA; subst; match goal with H : In _ [_] |- _ => destruct H as [H|[]]; inversion H; subst end;
            unfold has_field in *; match goal with K : get_field _ _ = Some ?x |- _ => rewrite Ef in K; injection K as <- end;
            match goal with K : get_type _ _ = Some ?x |- _ => rewrite Et in K; injection K as <- end; eauto. }
      apply Hgoal. clear Hgoal.
      inversion Hok as [? ? ? ? ? fd' ft Hf Hft Hl|? ? ? ? ? ? fd' ft Hf Hft Hl Hne Hsub| | |]; subst; rewrite Ef in Hf; injection Hf as <-;
        rewrite Et in Hft; injection Hft as <-.
      + assert (Hone : exists b, atoms e = [AFlag b] /\ leaf_flag t1 b).
        { unfold Typegen.build_set, build_base in HB. destruct t1; try (destruct Hl; fail).
          - injection HB as <-. eexists; split; reflexivity.
          - destruct (scalar_borrows (sc_name d)) eqn:E; [|discriminate]. injection HB as <-. eexists; split; [reflexivity|exact E].
          - injection HB as <-. eexists; split; reflexivity. }
        destruct Hone as (b & -> & Hb). cbn. split.
        * intros [<-|[]]. left; eauto.
        * intros [(b' & -> & Hb')|HA]; [left; f_equal; eapply leaf_flag_fun; eauto|destruct (atom_at_nil _ _ HA)].
      + assert (Hc : td_composite t1 = true).
        { unfold Typegen.build_set, build_base in HB. destruct t1; cbn in *; auto; try tauto; discriminate. }
        rewrite (set_atoms (response_name al n) t1 sub e); auto. split; auto. intros [(b & _ & Hb)|]; auto.
        destruct t1; cbn in Hc, Hb; try discriminate; contradiction.
    - split; [|exact I]. intros t k w _ _ HB. discriminate.
    - split; [intros t k w _ _ HB; discriminate|]. eapply Forall_impl; [|exact IH]. intros s [H _]; exact H.
  Qed.
  Lemma atoms_of_set p t sels e : (forall s, In s sels -> sel_ok S t s) -> td_composite t = true ->
    build_set p t sels = Built e -> forall a, In a (atoms e) <-> atom_at t sels a.
  Proof. intros. apply (set_atoms p); auto. apply Forall_forall. intros s _. apply all_atoms. Qed.
  Lemma atom_at_spread t sels n : atom_at t sels (ARef n) -> exists t' sels' ds, within S t sels t' sels' /\ In (SSpread n ds) sels'.
  Proof.
    remember (ARef n) as a eqn:Ea. intros HA. revert Ea.
    induction HA as [t sels al m args ds sub fd t1 b Hin Hu Hf Ht Hl|t sels al m args ds sub fd t1 a Hin Hu Hf Ht HA IH
                    |t sels c ds sub t1 a Hin Ht HA IH|t sels m ds Hin]; intros Ea.
    - discriminate.
    - destruct (IH Ea) as (t' & sels' & ds' & Hw & Hs). exists t', sels', ds'. split; auto.
      eapply within_field; eauto. intros ->. apply (atom_at_nil _ _ HA).
    - destruct (IH Ea) as (t' & sels' & ds' & Hw & Hs). exists t', sels', ds'. split; auto. eapply within_inline_on; eauto.
    - injection Ea as ->. exists t, sels, ds. split; auto. constructor.
  Qed.

  (** ** the specification in terms of atoms *)
  Lemma leaf_flag_true t : leaf_flag t true <-> borrowed_leaf borrow scalar_borrows t.
  Proof.
    destruct t as [b| | | | | |]; cbn; try tauto.
    - unfold builtin_borrows. destruct b; cbn; rewrite ?andb_true_r, ?andb_false_r; split; intros; try contradiction; try discriminate; auto.
    - split; [discriminate|tauto].
  Qed.
  Variable d : document.
  Notation selects_borrowed := (selects_borrowed S d borrow scalar_borrows).
  Lemma selects_atoms t sels : selects_borrowed t sels <->
    atom_at t sels (AFlag true) \/
    exists n f t1, atom_at t sels (ARef n) /\ defines d n f /\ get_type S (fr_cond f) = Some t1 /\ selects_borrowed t1 (fr_sel f).
  Proof.
    split.
    - induction 1 as [t sels al n args ds sub fd t1 Hin Hu Hf Ht Hl|t sels al n args ds sub fd t1 Hin Hu Hf Ht Hs IH
                     |t sels c ds sub t1 Hin Ht Hs IH|t sels n ds f t1 Hin Hd Ht Hs IH].
      + left. eapply aa_leaf; eauto. apply leaf_flag_true; auto.
      + destruct IH as [HA|(m & f & t2 & HA & Hd & Ht2 & Hs2)]; [left|right; exists m, f, t2; split; auto]; eapply aa_sub; eauto.
      + destruct IH as [HA|(m & f & t2 & HA & Hd & Ht2 & Hs2)]; [left|right; exists m, f, t2; split; auto]; eapply aa_inline; eauto.
      + right. exists n, f, t1. split; auto. eapply aa_spread; eauto.
    - assert (G : forall a, atom_at t sels a -> (a = AFlag true \/ exists n f t1, a = ARef n /\ defines d n f /\ get_type S (fr_cond f) = Some t1 /\ selects_borrowed t1 (fr_sel f)) -> selects_borrowed t sels).
      { induction 1 as [t sels al m args ds sub fd t1 b Hin Hu Hf Ht Hl|t sels al m args ds sub fd t1 a Hin Hu Hf Ht HA IH
                       |t sels c ds sub t1 a Hin Ht HA IH|t sels m ds Hin]; intros Hor.
        - eapply sb_field; eauto. apply leaf_flag_true. destruct Hor as [[= ->]|(? & ? & ? & E & _)]; [auto|discriminate].
        - eapply sb_sub; eauto.
        - eapply sb_inline; eauto.
        - destruct Hor as [E|(n & f & t1 & [= ->] & Hd & Ht & Hs)]; [discriminate|]. eapply sb_spread; eauto. }
      intros [HA|(n & f & t1 & HA & Hd & Ht & Hs)]; eapply G; eauto 10.
  Qed.
End Atoms.

(** * The conversion *)
Section Convert.
  Variable S : schema.
  Variable borrow : bool.
  Variable scalar_borrows : name -> option bool.
  Variable d : document.
  Notation build_set := (build_set S borrow scalar_borrows).
  Notation build_fragment := (build_fragment S borrow scalar_borrows).
  Notation build_operation := (build_operation S borrow scalar_borrows).
  Notation convert := (convert S borrow scalar_borrows).
  Notation selects_borrowed := (selects_borrowed S d borrow scalar_borrows).
  Notation atom_at := (atom_at S borrow scalar_borrows).
  Hypothesis HR : resolved S.
  Hypothesis Hok : document_ok S d.
  Hypothesis Hspreads : forall r t n ds, sel_at S d r t (SSpread n ds) -> exists f, defines d n f.

  Lemma defines_In_frags n f : defines d n f -> In f (doc_frags d).
  Proof. intros (b & a & E & _). rewrite E. apply in_or_app. right; left; auto. Qed.

  (** the parts of a successful conversion *)
  Record parts (types : list etype) (frags : list (name * etype)) (flags : list (name * bool)) (ops : list etype) : Prop := {
    pt_frags : forall n e, assoc n frags = Some e <-> exists f, defines d n f /\ build_fragment f = Built e;
    pt_sorted : NoDup (map fst frags);
    pt_built : forall f, In f (doc_frags d) -> exists e, build_fragment f = Built e;
    pt_ops : Forall2 (fun o e => build_operation o = Built e) (doc_ops d) ops;
    pt_flags : Forall2 (fun ne nb => fst nb = fst ne /\
                 exists vs, type_borrows frags (Datatypes.S (length frags)) (atoms (snd ne)) [] = Built (snd nb, vs)) frags flags;
    pt_types : types = map (update flags) (ops ++ map snd frags)
  }.
  Lemma named_frags named : bseq (map (fun f => bmap (fun e => (fr_name f, e)) (build_fragment f)) (doc_frags d)) = Built named ->
    (forall n e, assoc n (tmap_of named) = Some e <-> exists f, defines d n f /\ build_fragment f = Built e) /\
    (forall f, In f (doc_frags d) -> exists e, build_fragment f = Built e).
  Proof.
    set (g f := match build_fragment f with Built e => e | Panics _ => EBuiltin BInt false end).
    intros H. assert (Hg : named = map (fun f => (fr_name f, g f)) (doc_frags d) /\ forall f, In f (doc_frags d) -> build_fragment f = Built (g f)).
    { apply bseq_Forall2 in H. induction H as [|f x fs xs Hf HF IH]; [split; [reflexivity|intros ? []]|].
      apply bmap_Built in Hf as (e & He & ->). destruct IH as [-> IH].
      assert (Hg : g f = e) by (unfold g; rewrite He; reflexivity). split.
      - cbn. rewrite Hg. reflexivity.
      - intros f' [<-|Hf']; auto. rewrite Hg. auto. }
    destruct Hg as [-> Hg]. split; [|eauto].
    intros n e. rewrite tmap_of_assoc, (defines_assoc g). split; intros (f & Hd & E); exists f; split; auto.
    - rewrite <- E. apply Hg. eapply defines_In_frags; eauto.
    - rewrite Hg in E by (eapply defines_In_frags; eauto). congruence.
  Qed.
  Lemma Forall2_impl {A B} (P Q : A -> B -> Prop) l l' : (forall x y, P x y -> Q x y) -> Forall2 P l l' -> Forall2 Q l l'.
  Proof. intros H. induction 1; constructor; auto. Qed.
  Lemma convert_parts types : convert d = Built types -> exists frags flags ops, parts types frags flags ops.
  Proof.
    unfold Typegen.convert. intros H. apply bbind_Built in H as (named & HN & H). destruct (named_frags _ HN) as [Ha Hb].
    cbv zeta in H. apply bbind_Built in H as (flags & HF & H). apply bbind_Built in H as (ops & HO & [= <-]).
    exists (tmap_of named), flags, ops. constructor; auto.
    - apply tmap_of_NoDup.
    - apply bseq_Forall2 in HO. exact HO.
    - apply bseq_Forall2 in HF. eapply Forall2_impl; [|exact HF]. intros ne nb H. cbv beta in H.
      apply bmap_Built in H as ([b vs] & H & ->). cbn. eauto.
  Qed.

  (** fragments refer to fragments *)
  Lemma fragment_set n f t : defines d n f -> get_type S (fr_cond f) = Some t ->
    exists r, set_at S d r t (fr_sel f) /\ td_composite t = true /\ forall s, In s (fr_sel f) -> sel_ok S t s.
  Proof.
    intros Hd Ht. pose proof (defines_In_frags n f Hd) as Hin. destruct (proj2 Hok f Hin) as (t' & Ht' & Hc & Hs).
    rewrite Ht in Ht'. injection Ht' as <-. apply In_nth_error in Hin as (i & Hi). exists (RFrag i). split; auto.
    exists t, (fr_sel f). split; [constructor; auto|constructor].
  Qed.
  Lemma atoms_known r p t sels e : set_at S d r t sels -> td_composite t = true -> (forall s, In s sels -> sel_ok S t s) ->
    build_set p t sels = Built e -> forall n, In (ARef n) (atoms e) -> exists f, defines d n f.
  Proof.
    intros Hset Hc Hs HB n Hn. rewrite (atoms_of_set S borrow scalar_borrows p t sels e Hs Hc HB) in Hn.
    destruct (atom_at_spread _ _ _ _ _ _ Hn) as (t' & sels' & ds & Hw & Hin).
    apply (Hspreads r t' n ds). exists sels'. split; auto. eapply set_at_within; eauto.
  Qed.
  Lemma fragment_atoms_known n f e : defines d n f -> build_fragment f = Built e ->
    forall m, In (ARef m) (atoms e) -> exists g, defines d m g.
  Proof.
    intros Hd HB. unfold Typegen.build_fragment in HB. destruct (get_type S (fr_cond f)) as [t|] eqn:Et; [|discriminate].
    destruct (fragment_set n f t Hd Et) as (r & Hset & Hc & Hs). eapply atoms_known; eauto.
  Qed.
  Section WithFrags.
    Variable frags : list (name * etype).
    Hypothesis Hfrags : forall n e, assoc n frags = Some e <-> exists f, defines d n f /\ build_fragment f = Built e.
    Hypothesis Hall : forall f, In f (doc_frags d) -> exists e, build_fragment f = Built e.
    Lemma frags_closed n e : assoc n frags = Some e -> refs_known frags (atoms e).
    Proof.
      intros H m Hm. apply Hfrags in H as (f & Hd & HB). destruct (fragment_atoms_known n f e Hd HB m Hm) as (g & Hg).
      destruct (Hall g) as (e' & He'); [eapply defines_In_frags; eauto|]. exists e'. apply Hfrags. eauto.
    Qed.

    Inductive aleads : tdef -> list selection -> Prop :=
    | al_flag t sels : atom_at t sels (AFlag true) -> aleads t sels
    | al_ref t sels n f t1 : atom_at t sels (ARef n) -> defines d n f -> get_type S (fr_cond f) = Some t1 ->
        aleads t1 (fr_sel f) -> aleads t sels.
    Lemma selects_aleads t sels : selects_borrowed t sels -> aleads t sels.
    Proof.
      induction 1 as [t sels al n args ds sub fd t1 Hin Hu Hf Ht Hl|t sels al n args ds sub fd t1 Hin Hu Hf Ht Hs IH
                     |t sels c ds sub t1 Hin Ht Hs IH|t sels n ds f t1 Hin Hd Ht Hs IH].
      - apply al_flag. eapply aa_leaf; eauto. apply leaf_flag_true; auto.
      - destruct IH as [t1 sub HA|t1 sub m f t2 HA Hd Ht2 HL]; [apply al_flag|eapply al_ref; eauto]; eapply aa_sub; eauto.
      - destruct IH as [t1 sub HA|t1 sub m f t2 HA Hd Ht2 HL]; [apply al_flag|eapply al_ref; eauto]; eapply aa_inline; eauto.
      - eapply al_ref; eauto. eapply aa_spread; eauto.
    Qed.
    Lemma leads_selects t sels p e : (forall s, In s sels -> sel_ok S t s) -> td_composite t = true ->
      build_set p t sels = Built e -> (leads frags (atoms e) <-> selects_borrowed t sels).
    Proof.
      intros Hs Hc HB. split.
      - intros HL. remember (atoms e) as l eqn:El. revert t sels p e Hs Hc HB El.
        induction HL as [l H|l n e' H He' HL IH]; intros t sels p e Hs Hc HB ->.
        + apply selects_atoms. left. apply (atoms_of_set S borrow scalar_borrows p t sels e); auto.
        + apply Hfrags in He' as (f & Hd & HBf). pose proof HBf as HBf'. unfold Typegen.build_fragment in HBf.
          destruct (get_type S (fr_cond f)) as [t1|] eqn:Et; [|discriminate].
          destruct (fragment_set n f t1 Hd Et) as (r & _ & Hc1 & Hs1).
          apply selects_atoms. right. exists n, f, t1. split; [|split; [auto|split; auto]].
          * apply (atoms_of_set S borrow scalar_borrows p t sels e); auto.
          * eapply IH; eauto.
      - intros H. apply selects_aleads in H. revert p e Hs Hc HB.
        induction H as [t sels HA|t sels n f t1 HA Hd Ht HL IH]; intros p e Hs Hc HB.
        + apply le_flag. apply (atoms_of_set S borrow scalar_borrows p t sels e); auto.
        + destruct (Hall f) as (e' & He'); [eapply defines_In_frags; eauto|].
          apply (le_ref frags _ n e').
          * apply (atoms_of_set S borrow scalar_borrows p t sels e); auto.
          * apply Hfrags. eauto.
          * unfold Typegen.build_fragment in He'. rewrite Ht in He'. destruct (fragment_set n f t1 Hd Ht) as (r & _ & Hc1 & Hs1).
            eapply IH; eauto.
    Qed.
  End WithFrags.

  Lemma Forall2_keys {A B} (P : name * A -> name * B -> Prop) l l' :
    Forall2 (fun x y => fst y = fst x /\ P x y) l l' -> map fst l' = map fst l.
  Proof. induction 1 as [|x y l l' [E _] HF IH]; cbn; [reflexivity|]. rewrite E, IH. reflexivity. Qed.
  Lemma Forall2_find {A B} (P : A -> B -> Prop) l l' : Forall2 P l l' -> forall y, In y l' -> exists x, In x l /\ P x y.
  Proof.
    induction 1 as [|x y l l' HP HF IH]; intros z Hz; [destruct Hz|]. destruct Hz as [<-|Hz]; [exists x; split; [left|]; auto|].
    destruct (IH z Hz) as (x' & Hx & Hp). exists x'. split; [right|]; auto.
  Qed.
  Section WithParts.
    Variables (types : list etype) (frags : list (name * etype)) (flags : list (name * bool)) (ops : list etype).
    Hypothesis HP : parts types frags flags ops.
    Lemma flags_keys : map fst flags = map fst frags.
    Proof. exact (Forall2_keys _ _ _ (pt_flags _ _ _ _ HP)). Qed.
    Lemma flags_exact n b f t : assoc n flags = Some b -> defines d n f -> get_type S (fr_cond f) = Some t ->
      (b = true <-> selects_borrowed t (fr_sel f)).
    Proof.
      intros Hb Hd Ht. apply assoc_In in Hb.
      pose proof (pt_frags _ _ _ _ HP) as Hfr. pose proof (pt_built _ _ _ _ HP) as Hall.
      assert (He : exists e vs, In (n, e) frags /\ type_borrows frags (Datatypes.S (length frags)) (atoms e) [] = Built (b, vs)).
      { destruct (Forall2_find _ _ _ (pt_flags _ _ _ _ HP) _ Hb) as ([n' e] & Hin & [E (vs & HE)]). cbn in E, HE. subst n'. eauto. }
      destruct He as (e & vs & Hin & HE). apply assoc_NoDup in Hin; [|apply (pt_sorted _ _ _ _ HP)].
      destruct (type_borrows_exact frags (frags_closed frags Hfr Hall) (atoms e) (frags_closed frags Hfr Hall n e Hin)) as (b' & vs' & HE' & Hb').
      rewrite HE in HE'. injection HE' as <- <-. rewrite Hb'.
      apply Hfr in Hin as (f' & Hd' & HB). rewrite (defines_fun _ _ _ _ Hd' Hd) in HB.
      unfold Typegen.build_fragment in HB. rewrite Ht in HB. destruct (fragment_set n f t Hd Ht) as (r & _ & Hc & Hs).
      eapply leads_selects; eauto.
    Qed.
    Lemma flags_total n f : defines d n f -> exists b, assoc n flags = Some b.
    Proof.
      intros Hd. destruct (pt_built _ _ _ _ HP f (defines_In_frags _ _ Hd)) as (e & He).
      assert (Ha : assoc n frags = Some e) by (apply (pt_frags _ _ _ _ HP); eauto).
      apply assoc_In in Ha. apply (in_map fst) in Ha. cbn in Ha. rewrite <- flags_keys in Ha.
      destruct (assoc n flags) as [b|] eqn:E; [eauto|]. exfalso.
      apply in_map_iff in Ha as ([n' b] & E' & Ha). cbn in E'. subst n'.
      assert (Hnd : NoDup (map fst flags)) by (rewrite flags_keys; apply (pt_sorted _ _ _ _ HP)).
      rewrite (assoc_NoDup _ _ _ Hnd Ha) in E. discriminate.
    Qed.

    (** what an updated type says *)
    Definition flag_of (a : atom) : bool := match a with AFlag b => b | ARef n => match assoc n flags with Some b => b | None => false end end.
    Lemma borrows_update : (forall e, (forall n, In (ARef n) (atoms e) -> exists b, assoc n flags = Some b) ->
                                      borrows (update flags e) = existsb flag_of (atoms e)) /\
                           (forall w, (forall n, In (ARef n) (watoms w) -> exists b, assoc n flags = Some b) ->
                                      wborrows (wupdate flags w) = existsb flag_of (watoms w)).
    Proof.
      assert (Hfl : forall A (g : A -> list atom) l, existsb flag_of (flat_map g l) = existsb (fun x => existsb flag_of (g x)) l).
      { intros A g l. induction l as [|x l IH]; cbn; [reflexivity|]. rewrite existsb_app, IH. reflexivity. }
      assert (Hmap : forall A B (g : A -> B) p l, existsb p (map g l) = existsb (fun x => p (g x)) l).
      { intros A B g p l. induction l as [|x l IH]; cbn; [reflexivity|]. rewrite IH. reflexivity. }
      assert (Hext : forall A (p q : A -> bool) l, (forall x, In x l -> p x = q x) -> existsb p l = existsb q l).
      { intros A p q l H. induction l as [|x l IH]; cbn; [reflexivity|]. rewrite (H x), IH; cbn; auto. intros; apply H; right; auto. }
      apply etype_wtype_ind.
      - intros p fs HF Hk. cbn. rewrite Hfl, Hmap. apply Hext. intros f Hf. rewrite Forall_forall in HF. apply (HF f Hf).
        intros n Hn. apply Hk. cbn. apply in_flat_map. eauto.
      - intros p vs HF Hk. cbn. rewrite Hfl, Hmap. apply Hext. intros v Hv. cbn. rewrite Hfl, Hmap. apply Hext. intros f Hf.
        rewrite Forall_forall in HF. pose proof (HF v Hv) as HFv. rewrite Forall_forall in HFv. apply (HFv f Hf).
        intros n Hn. apply Hk. cbn. apply in_flat_map. exists v. split; auto. apply in_flat_map. eauto.
      - intros n b Hk. cbn. destruct (Hk n) as (b' & E); [left; auto|]. rewrite E. rewrite orb_false_r. reflexivity.
      - intros x b _. cbn. rewrite orb_false_r. reflexivity.
      - intros n b _. cbn. rewrite orb_false_r. reflexivity.
      - intros e IH Hk. cbn. auto.
      - intros w IH Hk. cbn. auto.
      - intros w IH Hk. cbn. auto.
    Qed.
    Lemma borrows_exact r p t sels e : set_at S d r t sels -> td_composite t = true -> (forall s, In s sels -> sel_ok S t s) ->
      build_set p t sels = Built e -> (borrows (update flags e) = true <-> selects_borrowed t sels).
    Proof.
      intros Hset Hc Hs HB. pose proof (pt_frags _ _ _ _ HP) as Hfr. pose proof (pt_built _ _ _ _ HP) as Hall.
      pose proof (atoms_known r p t sels e Hset Hc Hs HB) as Hk.
      rewrite (proj1 borrows_update). 2: { intros n Hn. destruct (Hk n Hn) as (f & Hd). eapply flags_total; eauto. }
      rewrite existsb_exists, selects_atoms. split.
      - intros ([b|n] & Ha & Hf); cbn in Hf.
        + subst b. left. apply (atoms_of_set S borrow scalar_borrows p t sels e); auto.
        + destruct (Hk n Ha) as (f & Hd). destruct (flags_total n f Hd) as (b & E). rewrite E in Hf. subst b.
          assert (Ht1 : exists t1, get_type S (fr_cond f) = Some t1).
          { destruct (proj2 Hok f (defines_In_frags n f Hd)) as (t1 & Ht1 & _). eauto. }
          destruct Ht1 as (t1 & Ht1). right. exists n, f, t1. split; [|split; [auto|split; [auto|apply (flags_exact n true f t1); auto]]].
          apply (atoms_of_set S borrow scalar_borrows p t sels e); auto.
      - intros [HA|(n & f & t1 & HA & Hd & Ht1 & Hsel)].
        + exists (AFlag true). split; auto. apply (atoms_of_set S borrow scalar_borrows p t sels e); auto.
        + exists (ARef n). apply (atoms_of_set S borrow scalar_borrows p t sels e) in HA; auto. split; auto. cbn.
          destruct (flags_total n f Hd) as (b & E). rewrite E. apply (flags_exact n b f t1); auto.
    Qed.

    (** references inside an updated type *)
    Lemma inside_update : (forall e e', inside (update flags e) e' -> exists e0, inside e e0 /\ e' = update flags e0) /\
                          (forall w e', winside (wupdate flags w) e' -> exists e0, winside w e0 /\ e' = update flags e0).
    Proof.
      apply etype_wtype_ind.
      - intros p fs HF e' H. cbn in H. inversion H as [|? ? k w ? Hin Hw|]; subst; [exists (EStruct p fs); split; [constructor|reflexivity]|].
        apply in_map_iff in Hin as ([k' w'] & [= <- <-] & Hin). rewrite Forall_forall in HF.
        destruct (HF _ Hin e') as (e0 & H1 & H2); [assumption|]. exists e0. split; auto. eapply in_struct; eauto.
      - intros p vs HF e' H. cbn in H. inversion H as [| |? ? n fs k w ? Hv Hin Hw]; subst; [exists (EEnum p vs); split; [constructor|reflexivity]|].
        apply in_map_iff in Hv as ([n' fs'] & [= <- <-] & Hv). apply in_map_iff in Hin as ([k' w'] & [= <- <-] & Hin).
        rewrite Forall_forall in HF. pose proof (HF _ Hv) as HF1. rewrite Forall_forall in HF1.
        destruct (HF1 _ Hin e') as (e0 & H1' & H2'); [assumption|]. exists e0. split; auto. eapply in_enum; eauto.
      - intros n b e' H. inversion H; subst. exists (ERef n b). split; [constructor|reflexivity].
      - intros n b e' H. inversion H; subst. exists (EBuiltin n b). split; [constructor|reflexivity].
      - intros n b e' H. inversion H; subst. exists (ELeaf n b). split; [constructor|reflexivity].
      - intros e IH e' H. inversion H; subst. destruct (IH e') as (e0 & Hi0 & He0); auto. exists e0. split; auto. constructor; auto.
      - intros w IH e' H. inversion H; subst. destruct (IH e') as (e0 & Hi0 & He0); auto. exists e0. split; auto. constructor; auto.
      - intros w IH e' H. inversion H; subst. destruct (IH e') as (e0 & Hi0 & He0); auto. exists e0. split; auto. constructor; auto.
    Qed.
    Lemma inside_ref_atom : (forall e n b, inside e (ERef n b) -> In (ARef n) (atoms e)) /\
                            (forall w n b, winside w (ERef n b) -> In (ARef n) (watoms w)).
    Proof.
      apply etype_wtype_ind.
      - intros p fs HF n b H. inversion H; subst. cbn. apply in_flat_map. rewrite Forall_forall in HF. exists (k, w). split; auto.
        eapply (HF (k, w)); eauto.
      - intros p vs HF n b H. inversion H; subst. cbn. apply in_flat_map. rewrite Forall_forall in HF. exists (n0, fs). split; auto.
        apply in_flat_map. exists (k, w). split; auto. pose proof (HF _ H2) as HF1. rewrite Forall_forall in HF1. eapply (HF1 (k, w)); eauto.
      - intros n b n' b' H. inversion H; subst. left; auto.
      - intros x b n' b' H. inversion H.
      - intros x b n' b' H. inversion H.
      - intros e IH n b H. inversion H; subst. cbn. eauto.
      - intros e IH n b H. inversion H; subst. cbn. eauto.
      - intros e IH n b H. inversion H; subst. cbn. eauto.
    Qed.
    (** where the types come from *)
    Lemma types_source e : In e types ->
      (exists i o e0, nth_error (doc_ops d) i = Some o /\ nth_error types i = Some e /\ build_operation o = Built e0 /\ e = update flags e0) \/
      (exists n f e0, defines d n f /\ build_fragment f = Built e0 /\ e = update flags e0).
    Proof.
      rewrite (pt_types _ _ _ _ HP). intros He. apply in_map_iff in He as (e0 & <- & He). apply in_app_iff in He as [He|He].
      - left. apply In_nth_error in He as (i & Hi). pose proof (pt_ops _ _ _ _ HP) as HO.
        assert (Ho : exists o, nth_error (doc_ops d) i = Some o /\ build_operation o = Built e0).
        { clear - HO Hi. revert i Hi. induction HO as [|o e ol el H HO IH]; intros i Hi; [destruct i; discriminate|].
          destruct i; cbn in *; [injection Hi as ->; eauto|eauto]. }
        destruct Ho as (o & Ho & HB). exists i, o, e0. split; auto. split; auto.
        rewrite nth_error_map, nth_error_app1, Hi; [reflexivity|]. apply nth_error_Some. congruence.
      - right. apply in_map_iff in He as ([n e1] & E & He). cbn in E. subst e1. apply assoc_NoDup in He; [|apply (pt_sorted _ _ _ _ HP)].
        apply (pt_frags _ _ _ _ HP) in He as (f & Hd & HB). exists n, f, e0. auto.
    Qed.
    Lemma operation_set i o e : nth_error (doc_ops d) i = Some o -> build_operation o = Built e ->
      exists t, root_type S (op_type o) t /\ set_at S d (ROp i) t (op_sel o) /\ td_composite t = true /\
                (forall s, In s (op_sel o) -> sel_ok S t s) /\ build_set (operation_item_name o) t (op_sel o) = Built e.
    Proof.
      intros Ho HB. unfold Typegen.build_operation in HB. destruct (op_root_name S (op_type o)) as [n|] eqn:En; [|discriminate].
      destruct (get_type S n) as [t|] eqn:Et; [|discriminate].
      assert (Hr : root_type S (op_type o) t) by (apply op_root_name_type; eauto).
      exists t. split; auto. split; [exists t, (op_sel o); split; [constructor; auto|constructor]|].
      split; [eapply (rs_roots S HR); eauto|]. split; auto.
      destruct (proj1 Hok o (nth_error_In _ _ Ho)) as (t' & Hr' & Hs). rewrite (root_type_fun _ _ _ _ Hr Hr'). auto.
    Qed.
    Lemma type_set e : In e types -> exists r p t sels e0, set_at S d r t sels /\ td_composite t = true /\
      (forall s, In s sels -> sel_ok S t s) /\ build_set p t sels = Built e0 /\ e = update flags e0.
    Proof.
      intros He. destruct (types_source e He) as [(i & o & e0 & Ho & _ & HB & ->)|(n & f & e0 & Hd & HB & ->)].
      - destruct (operation_set i o e0 Ho HB) as (t & _ & H1 & H2 & H3 & H4). exists (ROp i), (operation_item_name o), t, (op_sel o), e0. auto.
      - unfold Typegen.build_fragment in HB. destruct (get_type S (fr_cond f)) as [t|] eqn:Et; [|discriminate].
        destruct (fragment_set n f t Hd Et) as (r & H1 & H2 & H3). exists r, (fr_name f), t, (fr_sel f), e0. auto.
    Qed.
    Lemma refs_exact e n b : In e types -> inside e (ERef n b) ->
      exists f t, defines d n f /\ get_type S (fr_cond f) = Some t /\ assoc n flags = Some b /\ (b = true <-> selects_borrowed t (fr_sel f)).
    Proof.
      intros He Hi. destruct (type_set e He) as (r & p & t & sels & e0 & Hset & Hc & Hs & HB & ->).
      apply (proj1 inside_update) in Hi as (e1 & Hi & E). destruct e1 as [| |m b'| |]; try discriminate. cbn in E. injection E as -> Eb.
      apply (proj1 inside_ref_atom) in Hi. destruct (atoms_known r p t sels e0 Hset Hc Hs HB m Hi) as (f & Hd).
      destruct (proj2 Hok f (defines_In_frags m f Hd)) as (t1 & Ht1 & _). destruct (flags_total m f Hd) as (b2 & E2). rewrite E2 in Eb. subst b2.
      exists f, t1. split; auto. split; auto. split; auto. apply (flags_exact m b f t1); auto.
    Qed.
  End WithParts.
End Convert.
