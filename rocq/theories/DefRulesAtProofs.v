From Coq Require Import String Permutation Lia.
From Verif Require Import Base Ast Graph Maps Location ParserAt DefParserAt ParserAtSpec DefParserAtSpec Resolve ResolveSpec ResolveProofs ResolveAt ResolveAtSpec ResolveAtProofs ResolveErrorProofs
  InputCycles DefRules ValidatorAt ValidatorAtProofs DefRulesAt DefRulesAtSpec.
Local Open Scope string_scope.
Local Open Scope list_scope.

(** ** The check of one input type *)
Section Visit.
  Variable types : list (name * ctype).
  Variable target : name.
  Definition look (n : name) : option (list livd) := match assoc n types with Some (CType _ _ (LDInput _ _ _ fs)) => Some (fst fs) | _ => None end.
  (** [a] has a field of type [b!] *)
  Definition edge (a b : name) : Prop := exists fs f m sp, look a = Some fs /\ In f fs /\ liv_type f = LTBase m true sp /\ fst m = b /\ look b <> None.
  Definition refers (fs : list livd) : list ltype :=
    flat_map (fun f => match liv_type f with LTBase m true _ => if teqb (fst m) target then [liv_type f] else [] | _ => [] end) fs.
  Definition refers_in (n : name) : list ltype := match look n with Some fs => refers fs | None => [] end.
  Let U := map fst types.
  Lemma look_U n : look n <> None -> In n U.
  Proof. unfold look. destruct (assoc n types) as [t|] eqn:E; [|congruence]. intros _. apply assoc_In in E. apply in_map_iff. exists (n, t). auto. Qed.

  Definition disjoint (a b : list name) : Prop := forall x, In x a -> ~ In x b.
  Lemma visit_at_spec : forall fuel n fs circ enc, look n = Some fs -> unvisited text_dec U enc < fuel ->
    exists circ' new, visit_circular_at types fuel target fs (circ, enc) = Some (circ', new ++ enc) /\
      NoDup new /\ disjoint new enc /\ ~ In target new /\ (forall m, In m new -> look m <> None) /\
      Permutation circ' (circ ++ refers fs ++ flat_map refers_in new) /\
      (forall m, In m new -> plus edge n m) /\
      (forall m, edge n m -> m = target \/ In m (new ++ enc)) /\
      (forall x m, In x new -> edge x m -> m = target \/ In m (new ++ enc)).
  Proof.
    induction fuel as [|fuel IH]; intros n fs circ enc Hn Hf; [lia|]. cbn [visit_circular_at].
    match goal with |- context [fold_left ?F _ _] => set (G := F) end.
    assert (Hgen : forall l c e, incl enc e -> incl l fs ->
      exists c' new, fold_left G l (Some (c, e)) = Some (c', new ++ e) /\ NoDup new /\ disjoint new e /\ ~ In target new /\ (forall m, In m new -> look m <> None) /\
        Permutation c' (c ++ refers l ++ flat_map refers_in new) /\
        (forall m, In m new -> plus edge n m) /\
        (forall f m sp, In f l -> liv_type f = LTBase m true sp -> look (fst m) <> None -> fst m = target \/ In (fst m) (new ++ e)) /\
        (forall x m, In x new -> edge x m -> m = target \/ In m (new ++ e))).
    { induction l as [|f l IHl]; intros c e He Hl; cbn [fold_left].
      - exists c, []. split; [reflexivity|]. split; [constructor|]. split; [intros x []|]. split; [auto|]. split; [intros m []|]. split; [cbn; rewrite app_nil_r; reflexivity|].
        split; [intros m []|]. split; [intros g m sp []|intros x m []].
      - assert (Hl' : incl l fs) by (intros x Hx; apply Hl; right; exact Hx).
        assert (Hstep : forall c1 new1, G (Some (c, e)) f = Some (c1, new1 ++ e) -> NoDup new1 -> disjoint new1 e -> ~ In target new1 -> (forall m, In m new1 -> look m <> None) ->
          Permutation c1 (c ++ refers [f] ++ flat_map refers_in new1) -> (forall m, In m new1 -> plus edge n m) ->
          (forall m sp, liv_type f = LTBase m true sp -> look (fst m) <> None -> fst m = target \/ In (fst m) (new1 ++ e)) ->
          (forall x m, In x new1 -> edge x m -> m = target \/ In m (new1 ++ e)) ->
          exists c' new, fold_left G l (G (Some (c, e)) f) = Some (c', new ++ e) /\ NoDup new /\ disjoint new e /\ ~ In target new /\ (forall m, In m new -> look m <> None) /\
            Permutation c' (c ++ refers (f :: l) ++ flat_map refers_in new) /\
            (forall m, In m new -> plus edge n m) /\
            (forall g m sp, In g (f :: l) -> liv_type g = LTBase m true sp -> look (fst m) <> None -> fst m = target \/ In (fst m) (new ++ e)) /\
            (forall x m, In x new -> edge x m -> m = target \/ In m (new ++ e))).
        { intros c1 new1 HG N1 D1 T1 L1 P1 R1 F1 C1. rewrite HG. destruct (IHl c1 (new1 ++ e)) as (c' & new2 & E & N2 & D2 & T2 & L2 & P2 & R2 & F2 & C2).
          { intros x Hx. apply in_or_app. right. auto. } { exact Hl'. }
          exists c', (new2 ++ new1). split; [rewrite <- app_assoc; exact E|]. split.
          { clear - N1 N2 D2. induction new2 as [|x new2 IH]; cbn; [exact N1|]. inversion_clear N2 as [|? ? Hx N]. constructor.
            - rewrite in_app_iff. intros [H|H]; [contradiction|]. apply (D2 x); [left; reflexivity|apply in_or_app; left; exact H].
            - apply IH; [exact N|]. intros y Hy. apply D2. right. exact Hy. }
          split. { intros x Hx Hxe. apply in_app_or in Hx as [Hx|Hx]; [apply (D2 x Hx), in_or_app; right; exact Hxe|exact (D1 x Hx Hxe)]. }
          split. { rewrite in_app_iff. tauto. }
          split. { intros m Hm. apply in_app_or in Hm as [Hm|Hm]; auto. }
          split. { rewrite P2, P1. rewrite flat_map_app. change (refers (f :: l)) with (refers [f] ++ refers l) || (unfold refers; cbn [flat_map]; rewrite ?app_nil_r; fold (refers l)).
                   rewrite <- !app_assoc. apply Permutation_app_head. apply Permutation_app_head.
                   rewrite !app_assoc. rewrite (Permutation_app_comm (flat_map refers_in new1) (refers l)). rewrite <- !app_assoc. apply Permutation_app_head. apply Permutation_app_comm. }
          split. { intros m Hm. apply in_app_or in Hm as [Hm|Hm]; auto. }
          split. { intros g m sp [<-|Hg] Eg Hlook.
                   - destruct (F1 m sp Eg Hlook) as [H|H]; [left; exact H|right]. rewrite <- app_assoc. apply in_or_app. right. exact H.
                   - rewrite <- app_assoc. eapply F2; eauto. }
          intros x m Hx Hxm. rewrite <- app_assoc. apply in_app_or in Hx as [Hx|Hx]; [eapply C2; eauto|]. destruct (C1 x m Hx Hxm) as [H|H]; [left; exact H|right]. apply in_or_app. right. exact H. }
        assert (Hskip : G (Some (c, e)) f = Some (c, e) -> refers [f] = [] -> (forall m sp, liv_type f = LTBase m true sp -> look (fst m) <> None -> fst m = target \/ In (fst m) e) ->
          exists c' new, fold_left G l (G (Some (c, e)) f) = Some (c', new ++ e) /\ NoDup new /\ disjoint new e /\ ~ In target new /\ (forall m, In m new -> look m <> None) /\
            Permutation c' (c ++ refers (f :: l) ++ flat_map refers_in new) /\
            (forall m, In m new -> plus edge n m) /\
            (forall g m sp, In g (f :: l) -> liv_type g = LTBase m true sp -> look (fst m) <> None -> fst m = target \/ In (fst m) (new ++ e)) /\
            (forall x m, In x new -> edge x m -> m = target \/ In m (new ++ e))).
        { intros HG Hr HF. apply (Hstep c []); [exact HG|apply NoDup_nil|intros x []|intros []|intros m []| |intros m []|exact HF|intros x m []]. rewrite Hr. cbn. rewrite app_nil_r. reflexivity. }
        destruct (liv_type f) as [inner [|] sp|inner r sp] eqn:Et.
        + destruct (teqb (fst inner) target) eqn:Eq.
          * apply (Hstep (c ++ [LTBase inner true sp]) []); [unfold G; rewrite Et, Eq; reflexivity|apply NoDup_nil|intros x []|intros []|intros m []| |intros m []| |intros x m []].
            -- unfold refers. cbn [flat_map]. rewrite Et, Eq. cbn. reflexivity.
            -- intros m sp' E _. injection E as <- _. left. apply teqb_eq in Eq. exact Eq.
          * pose proof (proj1 (teqb_neq _ _) Eq) as Hneq.
            assert (Hr0 : refers [f] = []) by (unfold refers; cbn [flat_map]; rewrite Et, Eq; reflexivity).
            destruct (look (fst inner)) as [fi|] eqn:Ek.
            -- assert (Ea : exists b r nn dd ds s', assoc (fst inner) types = Some (CType b r (LDInput nn dd ds (fi, s')))).
               { unfold look in Ek. destruct (assoc (fst inner) types) as [[b'|b' r' [| | | |nn dd ds [fi' s']|]]|]; try discriminate. injection Ek as <-. eauto 8. }
               destruct Ea as (b & r & nn & dd & ds & s' & Ea).
               destruct (mem text_dec (fst inner) e) eqn:Em.
               ++ apply Hskip; [unfold G; rewrite Et, Eq, Ea, Em; reflexivity|exact Hr0|]. intros m sp' E _. injection E as <- _. right. apply mem_In in Em. exact Em.
               ++ apply mem_false in Em as Hnin.
                  assert (Hin : In (fst inner) U) by (apply look_U; congruence).
                  destruct (IH (fst inner) fi c (fst inner :: e) Ek) as (c1 & new1 & E1 & N1 & D1 & T1 & L1 & P1 & R1 & F1 & C1).
                  { pose proof (unvisited_cons text_dec U e (fst inner) Hin Hnin). pose proof (unvisited_mono text_dec U enc e He). lia. }
                  assert (Hedge : edge n (fst inner)). { exists fs, f, inner, sp. repeat split; auto; [apply Hl; left; reflexivity|congruence]. }
                  assert (Hclose : forall x m, In x (new1 ++ [fst inner]) -> edge x m -> m = target \/ In m ((new1 ++ [fst inner]) ++ e)).
                  { intros x m Hx Hxm. rewrite <- app_assoc. apply in_app_or in Hx as [Hx|[<-|[]]]; [eapply C1; eauto|eapply F1; eauto]. }
                  apply (Hstep c1 (new1 ++ [fst inner])).
                  ** unfold G. rewrite Et, Eq, Ea, Em. cbn [fst]. rewrite E1. rewrite <- app_assoc. reflexivity.
                  ** apply (Permutation_NoDup (l := fst inner :: new1)); [apply Permutation_cons_append|]. constructor; [|exact N1]. intros H. apply (D1 _ H). left. reflexivity.
                  ** intros x Hx Hxe. apply in_app_or in Hx as [Hx|[<-|[]]]; [apply (D1 x Hx); right; exact Hxe|contradiction].
                  ** rewrite in_app_iff. intros [H|[H|[]]]; [contradiction|congruence].
                  ** intros m Hm. apply in_app_or in Hm as [Hm|[<-|[]]]; [auto|congruence].
                  ** rewrite Hr0. cbn [app]. rewrite P1. apply Permutation_app_head. rewrite flat_map_app. cbn [flat_map]. rewrite app_nil_r. unfold refers_in at 3. rewrite Ek. apply Permutation_app_comm.
                  ** intros m Hm. apply in_app_or in Hm as [Hm|[<-|[]]]; [eapply plus_step; eauto|apply plus_one; exact Hedge].
                  ** intros m sp' E _. injection E as <- _. right. rewrite <- app_assoc. apply in_or_app. right. left. reflexivity.
                  ** exact Hclose.
            -- apply Hskip; [|exact Hr0|intros m sp' E K; injection E as <- _; congruence]. unfold look in Ek. unfold G. rewrite Et, Eq.
               destruct (assoc (fst inner) types) as [[b|b r [| | | |nn dd ds fi'|]]|]; try discriminate; reflexivity.
        + apply Hskip; [unfold G; rewrite Et; reflexivity|unfold refers; cbn [flat_map]; rewrite Et; reflexivity|intros m sp' E; discriminate].
        + apply Hskip; [unfold G; rewrite Et; reflexivity|unfold refers; cbn [flat_map]; rewrite Et; reflexivity|intros m sp' E; discriminate]. }
    destruct (Hgen fs circ enc (incl_refl _) (incl_refl _)) as (c' & new & E & N & D & T & L & P & R & F & C). exists c', new. do 7 (split; [assumption|]). split; [|exact C].
    intros m (fs' & f & x & sp & H1 & H2 & H3 & <- & H4). rewrite Hn in H1. injection H1 as <-. eapply F; eauto.
  Qed.

  (** the types reached from the target, and the references to it in them *)
  Lemma visit_from_target fs : look target = Some fs ->
    exists circ enc new, visit_circular_at types (Datatypes.S (length types)) target fs ([], []) = Some (circ, enc) /\ NoDup (target :: new) /\
      (forall m, In m (target :: new) <-> star edge target m) /\ (forall m, In m new -> look m <> None) /\
      Permutation circ (flat_map refers_in (target :: new)) /\ (circ <> [] <-> plus edge target target).
  Proof.
    intros H. destruct (visit_at_spec (Datatypes.S (length types)) target fs [] [] H) as (c & new & E & N & D & T & L & P & R & F & C).
    { pose proof (unvisited_le text_dec U []). unfold U in *. rewrite map_length in *. lia. }
    rewrite app_nil_r in E, F, C. exists c, new, new. split; [exact E|]. split; [constructor; assumption|].
    assert (K : forall m, In m (target :: new) <-> star edge target m).
    { intros m. split.
      - intros [<-|Hm]; [constructor|apply plus_star, R, Hm].
      - intros Hs. assert (G : forall a b, star edge a b -> In a (target :: new) -> In b (target :: new)).
        { intros a b. induction 1 as [a|a b c0 Hab Hbc IH]; intros Ha; [exact Ha|]. apply IH. destruct Ha as [<-|Ha].
          - destruct (F b Hab) as [->|Hb]; [left; reflexivity|right; exact Hb].
          - destruct (C a b Ha Hab) as [->|Hb]; [left; reflexivity|right; exact Hb]. }
        exact (G _ _ Hs (or_introl eq_refl)). }
    split; [exact K|]. split; [exact L|].
    assert (P' : Permutation c (flat_map refers_in (target :: new))). { rewrite P. cbn [app flat_map]. unfold refers_in at 2. rewrite H. reflexivity. }
    split; [exact P'|]. split.
    - intros Hne. destruct c as [|t c]; [congruence|]. assert (It : In t (flat_map refers_in (target :: new))) by (apply (Permutation_in _ P'); left; reflexivity).
      apply in_flat_map in It as (m & Hm & It). unfold refers_in in It. destruct (look m) as [fm|] eqn:Em; [|destruct It]. apply in_flat_map in It as (f & Hf & It).
      apply (star_snoc_plus _ _ m); [apply K, Hm|]. destruct (liv_type f) as [x [|] sp|] eqn:Et; try destruct It. destruct (teqb (fst x) target) eqn:Eq; [|destruct It]. apply teqb_eq in Eq.
      exists fm, f, x, sp. repeat split; auto. congruence.
    - intros Hp Hc. apply plus_last in Hp as (m & Hm & (fm & f & x & sp & E1 & E2 & E3 & E4 & E5)). apply K in Hm. subst c. apply Permutation_nil in P'.
      assert (It : In (liv_type f) (flat_map refers_in (target :: new))).
      { apply in_flat_map. exists m. split; [exact Hm|]. unfold refers_in. rewrite E1. apply in_flat_map. exists f. split; [exact E2|]. rewrite E3, E4, teqb_refl. left. reflexivity. }
      rewrite P' in It. destruct It.
  Qed.
End Visit.

(** ** The same errors as without positions *)
Lemma find_assoc {A} (key : A -> name) (m : list (name * A)) n : Forall (fun p => key (snd p) = fst p) m -> find (fun x => teqb (key x) n) (map snd m) = assoc n m.
Proof.
  induction 1 as [|[k a] m E F IH]; cbn; [reflexivity|]. cbn in E. rewrite E. rewrite teqb_sym. destruct (teqb n k); [reflexivity|exact IH].
Qed.
Section Same.
  Variable d : lcdoc.
  Let types := fst (index ct_name (lc_types d)).
  Variable sc : schema.
  Hypothesis Hsc : s_types sc = map plain_ctype (map snd types).
  Lemma lookup_same n : get_type sc n = option_map plain_ctype (assoc n types).
  Proof.
    unfold get_type. rewrite Hsc. rewrite <- (find_assoc ct_name types n); [|apply index_entries]. generalize (map snd types). intros l. induction l as [|t l IH]; cbn; [reflexivity|].
    rewrite ct_name_plain. destruct (teqb (ct_name t) n); [reflexivity|exact IH].
  Qed.
  Definition both_plain (st : list ltype * list name) : list tref * list name := (map plain_type (fst st), snd st).
  Lemma visit_same : forall fuel target fs st, option_map both_plain (visit_circular_at types fuel target fs st) = visit_circular sc fuel target (map plain_ivd fs) (both_plain st).
  Proof.
    induction fuel as [|fuel IH]; intros target fs st; [reflexivity|]. cbn [visit_circular_at visit_circular].
    match goal with |- option_map _ (fold_left ?F _ _) = fold_left ?F' _ _ => set (G := F); set (G' := F') end.
    assert (K : forall l o, option_map both_plain (fold_left G l o) = fold_left G' (map plain_ivd l) (option_map both_plain o)); [|exact (K fs (Some st))].
    induction l as [|f l IHl]; intros o; cbn [fold_left map]; [reflexivity|]. rewrite IHl. f_equal. destruct o as [[c e]|]; [|reflexivity].
    unfold G, G'. cbn [option_map both_plain fst snd plain_ivd iv_type]. destruct (liv_type f) as [m [|] sp|t r sp]; cbn [plain_type]; try reflexivity.
    destruct (teqb (fst m) target); [unfold both_plain; cbn [fst snd option_map]; rewrite map_app; reflexivity|]. rewrite lookup_same.
    destruct (assoc (fst m) types) as [[b|b r [| | | |nn dd ds fs'|]]|]; try reflexivity. cbn [option_map plain_ctype plain_tdef io_fields]. destruct (mem text_dec (fst m) e); [reflexivity|]. rewrite IH. reflexivity.
  Qed.
  Lemma errors_same : map plain_deferr (definition_errors_at types) = definition_errors sc.
  Proof.
    unfold definition_errors_at, definition_errors, circular_reference_errors. rewrite Hsc, !map_app, !map_flat_map, !flat_map_map. f_equal; [|f_equal]; apply flat_map_ext; intros [k t]; cbn [snd].
    - destruct t as [b|b r [| | | | |nn dd ds vs]]; try reflexivity. cbn [plain_ctype plain_tdef]. unfold enum_errors_at, enum_errors. cbn [en_values]. rewrite duplicates_map, !map_map. reflexivity.
    - destruct t as [b|b r [| | | |nn dd ds fs|]]; try reflexivity. cbn [plain_ctype plain_tdef]. unfold input_errors_at, input_errors. cbn [io_fields]. rewrite duplicates_map, !map_map. reflexivity.
    - destruct t as [b|b r [| | | |nn dd ds fs|]]; try reflexivity. cbn [plain_ctype plain_tdef]. unfold circular_errors_at, input_object_error. cbn [io_name io_fields].
      assert (L : length (s_types sc) = length types) by (rewrite Hsc, !map_length; reflexivity). rewrite L.
      change (@nil tref, @nil text) with (both_plain (@nil ltype, @nil name)). rewrite <- visit_same. destruct (visit_circular_at types _ (fst nn) (fst fs) ([], [])) as [[[|t circ] enc]|]; reflexivity.
  Qed.
End Same.

(** ** What the errors are *)
Definition not_input (t : ltdef) : bool := match t with LDInput _ _ _ _ => false | _ => true end.
Lemma introspection_not_input : forallb not_input introspection_at = true.
Proof. vm_compute. reflexivity. Qed.
Definition enum_distinct (t : ltdef) : bool := match t with LDEnum _ _ _ vs => match duplicates (fun v => fst (lev_name v)) (fst vs) with [] => true | _ => false end | _ => true end.
Lemma introspection_enums : forallb enum_distinct introspection_at = true.
Proof. vm_compute. reflexivity. Qed.
Section Told.
  Variable scalar_order : list builtin.
  Variable directive_order : list lddef.
  Variable l : list lsysdef.
  Let d := complete_at scalar_order directive_order l.
  Notation types := (fst (index ct_name (lc_types d))).
  Let roots := query_roots_at (doc_schemas l).
  Hypothesis NT : NoDup (map ct_name (lc_types d)).
  Lemma values_there t : In t (map snd types) <-> In t (lc_types d).
  Proof. split; apply Permutation_in; [apply Permutation_sym|]; apply index_perm, NT. Qed.
  Lemma input_there n dd ds fs b r : In (CType b r (LDInput n dd ds fs)) (lc_types d) -> In (LDInput n dd ds fs) (doc_types l).
  Proof.
    intros H. apply type_cases in H as [(x & C)|[(x & I & E)|(x & I & E)]]; [discriminate| |].
    - exfalso. pose proof (proj1 (forallb_forall _ _) introspection_not_input x I). destruct x; discriminate.
    - destruct x; try discriminate. injection E as _ _ -> -> -> ->. exact I.
  Qed.
  Lemma own_input n dd ds fs : In (LDInput n dd ds fs) (doc_types l) -> In (CType false false (LDInput n dd ds fs)) (lc_types d).
  Proof. intros H. exact (own_type scalar_order directive_order l _ H). Qed.
  Lemma look_input n fs : look types n = Some fs <-> exists m, input_type l m fs /\ fst m = n.
  Proof.
    unfold look. split.
    - destruct (assoc n types) as [[b|b r [| | | |m dd ds [fs' sp]|]]|] eqn:E; try discriminate. intros H. injection H as <-. apply index_In in E as (I & E). apply input_there in I. exists m. split; [exists dd, ds, sp; exact I|exact E].
    - intros (m & (dd & ds & sp & I) & E). apply own_input in I. rewrite (index_NoDup ct_name _ n _ NT I E). reflexivity.
  Qed.
  Lemma input_unique m fs m' fs' : input_type l m fs -> input_type l m' fs' -> fst m = fst m' -> m = m' /\ fs = fs'.
  Proof.
    intros (dd & ds & sp & I) (dd' & ds' & sp' & I') E. apply own_input in I, I'. pose proof (NoDup_key_inj ct_name _ _ _ NT I I' E) as K. injection K as -> _ _ -> _. auto.
  Qed.
  Lemma edge_needs a b : edge types a b <-> needs l a b.
  Proof.
    split.
    - intros (fs & f & m & sp & H1 & H2 & H3 & H4 & H5). apply look_input in H1 as (n & I & E). destruct (look types b) as [fs'|] eqn:Eb; [|congruence]. apply look_input in Eb as (n' & I' & E'). exists n, fs, f, m, sp, n', fs'. auto 10.
    - intros (n & fs & f & m & sp & n' & fs' & I & E & Hf & Et & Em & I' & E'). exists fs, f, m, sp. repeat split; auto; [apply look_input; eauto|]. intros C. assert (K : look types b = Some fs') by (apply look_input; eauto). congruence.
  Qed.
  Lemma star_needs a b : star (edge types) a b <-> star (needs l) a b.
  Proof. split; apply star_impl; intros; now apply edge_needs. Qed.
  Lemma plus_needs a b : plus (edge types) a b <-> plus (needs l) a b.
  Proof. split; apply plus_impl; intros; now apply edge_needs. Qed.
  Lemma refers_places target fs : map type_span (refers target fs) = references target fs.
  Proof.
    unfold refers, references. rewrite map_flat_map. apply flat_map_ext. intros f. destruct (liv_type f) as [m [|] sp|]; try reflexivity. destruct (teqb (fst m) target); reflexivity.
  Qed.
  (** the types with the names *)
  Lemma all_input ns : (forall m, In m ns -> look types m <> None) -> exists needed : list (lname * list livd), map (fun t => fst (fst t)) needed = ns /\ (forall t, In t needed -> input_type l (fst t) (snd t)).
  Proof.
    induction ns as [|n ns IH]; intros H; [exists []; split; [reflexivity|intros t []]|]. destruct IH as (needed & E & K); [intros m Hm; apply H; right; exact Hm|].
    destruct (look types n) as [fs|] eqn:En; [|exfalso; apply (H n); [left; reflexivity|exact En]]. apply look_input in En as (m & I & Em). exists ((m, fs) :: needed). split; [cbn; now rewrite E, Em|].
    intros t [<-|Ht]; [exact I|auto].
  Qed.
  Lemma refers_all target (needed : list (lname * list livd)) : (forall t, In t needed -> input_type l (fst t) (snd t)) ->
    map type_span (flat_map (refers_in types target) (map (fun t => fst (fst t)) needed)) = flat_map (fun t => references target (snd t)) needed.
  Proof.
    induction needed as [|[m fs] needed IH]; intros H; [reflexivity|]. cbn [map flat_map fst snd]. rewrite map_app, IH; [|intros t Ht; apply H; right; exact Ht]. f_equal.
    unfold refers_in. assert (K : look types (fst m) = Some fs) by (apply look_input; exists m; split; [exact (H (m, fs) (or_introl eq_refl))|reflexivity]). rewrite K. apply refers_places.
  Qed.
  Lemma circular_at n fs : input_type l n fs ->
    exists needed circ, NoDup (map (fun t => fst (fst t)) needed) /\ (forall m fs', In (m, fs') needed <-> input_type l m fs' /\ star (needs l) (fst n) (fst m)) /\
      Permutation (map type_span circ) (flat_map (fun t => references (fst n) (snd t)) needed) /\ (circ <> [] <-> plus (needs l) (fst n) (fst n)) /\
      circular_errors_at types n fs = match circ with [] => [] | _ => [LDCircularInput n circ] end.
  Proof.
    intros I. assert (K : look types (fst n) = Some fs) by (apply look_input; eauto). destruct (visit_from_target types (fst n) fs K) as (circ & enc & new & E & N & R & L & P & C).
    destruct (all_input (fst n :: new)) as (needed & En & Ht). { intros m [<-|Hm]; [congruence|auto]. }
    exists needed, circ. split; [rewrite En; exact N|]. split.
    - intros m fs'. split.
      + intros H. split; [exact (Ht _ H)|]. apply star_needs. apply R. rewrite <- En. apply in_map_iff. exists (m, fs'). auto.
      + intros (H & S). apply star_needs, R in S. rewrite <- En in S. apply in_map_iff in S as ([m' fs''] & Em & J). cbn in Em. destruct (input_unique m' fs'' m fs' (Ht _ J) H Em) as (-> & ->). exact J.
    - split; [|split].
      + rewrite <- refers_all by exact Ht. rewrite En. apply Permutation_map. exact P.
      + rewrite C. apply plus_needs.
      + unfold circular_errors_at. rewrite E. destruct circ; reflexivity.
  Qed.
  Lemma needed_unique (n : name) (a b : list (lname * list livd)) : NoDup (map (fun t => fst (fst t)) a) -> NoDup (map (fun t => fst (fst t)) b) ->
    (forall m fs', In (m, fs') a <-> input_type l m fs' /\ star (needs l) n (fst m)) -> (forall m fs', In (m, fs') b <-> input_type l m fs' /\ star (needs l) n (fst m)) -> Permutation a b.
  Proof.
    intros Na Nb Ha Hb. apply NoDup_Permutation; [exact (NoDup_map_inv _ _ Na)|exact (NoDup_map_inv _ _ Nb)|]. intros [m fs]. rewrite Ha, Hb. reflexivity.
  Qed.
  Lemma circular_message k : tx "Input object type definition " ++ quoted k ++ tx " contains disallowed circular reference(s)" =
    tx "Input object type definition `" ++ k ++ tx "` contains disallowed circular reference(s)".
  Proof. unfold quoted. rewrite <- app_assoc. cbn [tx app]. rewrite <- app_assoc. reflexivity. Qed.
  Lemma errors_told er : In er (map definition_error (definition_errors_at types)) -> wrong_type l er.
  Proof.
    intros H. apply in_map_iff in H as (e & <- & H). unfold definition_errors_at in H. rewrite !in_app_iff, !in_flat_map in H. destruct H as [(t & It & H)|[(t & It & H)|(t & It & H)]]; apply values_there in It.
    - destruct t as [b|b r [| | | | |n dd ds vs]]; try destruct H. pose proof It as It'. apply type_cases in It' as [(x & C)|[(x & I & E)|(x & I & E)]]; [discriminate| |].
      + pose proof (proj1 (forallb_forall _ _) introspection_enums x I) as K. destruct x; try discriminate. injection E as _ _ <- <- <- <-. cbn in K. unfold enum_errors_at in H. destruct (duplicates _ (fst vs)); [destruct H|discriminate].
      + destruct x; try discriminate. injection E as _ _ <- <- <- <-. apply in_map_iff in H as ([k xs] & <- & H). apply duplicates_In in H as (-> & H). cbn [definition_error fst snd].
        apply (wt_enum l n (fst vs) k); [|exact H]. exists dd, ds, (snd vs). destruct vs. exact I.
    - destruct t as [b|b r [| | | |n dd ds fs|]]; try destruct H. apply input_there in It. apply in_map_iff in H as ([k xs] & <- & H). apply duplicates_In in H as (-> & H). cbn [definition_error fst snd].
      apply (wt_input l n (fst fs) k); [|exact H]. exists dd, ds, (snd fs). destruct fs. exact It.
    - destruct t as [b|b r [| | | |n dd ds fs|]]; try destruct H. apply input_there in It. assert (I : input_type l n (fst fs)) by (exists dd, ds, (snd fs); destruct fs; exact It).
      destruct (circular_at n (fst fs) I) as (needed & circ & N & M & P & C & E). rewrite E in H. destruct circ as [|t circ]; [destruct H|]. destruct H as [<-|[]].
      cbn [definition_error]. rewrite circular_message. rewrite <- (map_map type_span (fun sp => (tx "Occurence of circular reference", sp))).
      eapply wt_circular; eauto. apply C. discriminate.
  Qed.
  Definition same_error (a b : err) : Prop := er_message a = er_message b /\ er_primary a = er_primary b /\ Permutation (er_secondary a) (er_secondary b).
  Lemma errors_reported er : wrong_type l er -> exists er', In er' (map definition_error (definition_errors_at types)) /\ same_error er' er.
  Proof.
    intros H. destruct H as [n vs k (dd & ds & sp & I) H|n fs k (dd & ds & sp & I) H|n fs needed places I C N M P].
    - exists (definition_error (LDRepeatedEnumValue k (values_named k vs))). split; [|split; [reflexivity|split; [reflexivity|apply Permutation_refl]]]. apply in_map. unfold definition_errors_at. rewrite !in_app_iff. left.
      apply in_flat_map. exists (CType false false (LDEnum n dd ds (vs, sp))). split; [apply values_there; exact (own_type scalar_order directive_order l _ I)|]. apply in_map_iff. exists (k, values_named k vs). split; [reflexivity|]. apply duplicates_In. split; [reflexivity|exact H].
    - exists (definition_error (LDRepeatedInputField k (fields_named k fs))). split; [|split; [reflexivity|split; [reflexivity|apply Permutation_refl]]]. apply in_map. unfold definition_errors_at. rewrite !in_app_iff. right. left.
      apply in_flat_map. exists (CType false false (LDInput n dd ds (fs, sp))). split; [apply values_there; exact (own_input _ _ _ _ I)|]. apply in_map_iff. exists (k, fields_named k fs). split; [reflexivity|]. apply duplicates_In. split; [reflexivity|exact H].
    - destruct (circular_at n fs I) as (needed' & circ & N' & M' & P' & C' & E). exists (definition_error (LDCircularInput n circ)). split.
      + destruct I as (dd & ds & sp & I). apply in_map. unfold definition_errors_at. rewrite !in_app_iff. right. right. apply in_flat_map. exists (CType false false (LDInput n dd ds (fs, sp))). split; [apply values_there; exact (own_input _ _ _ _ I)|].
        cbn [fst]. rewrite E. apply C' in C. destruct circ; [congruence|]. left. reflexivity.
      + split; [apply circular_message|]. split; [reflexivity|]. cbn [definition_error er_secondary]. rewrite <- (map_map type_span (fun sp => (tx "Occurence of circular reference", sp))). apply Permutation_map. rewrite P', P.
        apply Permutation_flat_map. exact (needed_unique (fst n) needed' needed N' N M' M).
  Qed.
End Told.
