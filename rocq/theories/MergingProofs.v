(** What the merging rule finds: proofs. *)
From Verif Require Import Base Ast Graph Maps Doc DocSpec DocRulesSpec FragmentsSpec FragmentCyclesProofs ValueEq ValueEqSpec ValueEqProofs Merging MergingSpec MergingTermination.

(** * Partial correctness of loops *)
Lemma bind_Some {A B} (m : M A) (f : A -> M B) st b st' : bind m f st = Some (b, st') -> exists a st1, m st = Some (a, st1) /\ f a st1 = Some (b, st').
Proof. unfold bind. destruct (m st) as [[a st1]|]; [|discriminate]. intros H. exists a, st1. auto. Qed.
Lemma foldM_Some {A B} (f : B -> A -> M B) (Inv : list A -> B -> mstate -> Prop) l b st b' st' :
  Inv [] b st ->
  (forall done a rest b st b' st', l = done ++ a :: rest -> Inv done b st -> f b a st = Some (b', st') -> Inv (done ++ [a]) b' st') ->
  foldM f l b st = Some (b', st') -> Inv l b' st'.
Proof.
  intros H0 Hs. assert (K : forall rest done b st, l = done ++ rest -> Inv done b st -> foldM f rest b st = Some (b', st') -> Inv l b' st').
  - induction rest as [|a rest IH]; intros done b0 st0 El Hi E; cbn [foldM] in E.
    + injection E as <- <-. rewrite El, app_nil_r. exact Hi.
    + apply bind_Some in E as (b1 & st1 & E1 & E2). apply (IH (done ++ [a]) b1 st1); auto; [rewrite <- app_assoc; auto|]. eapply Hs; eauto.
  - apply (K l [] b st); auto.
Qed.
Lemma in_middle {A} (l done rest : list A) a : l = done ++ a :: rest -> In a l.
Proof. intros ->. apply in_app_iff. right. left. auto. Qed.

(** * Types and arguments *)
Section Types.
  Variable S : schema.
  Lemma scalar_or_enum_leaf n : scalar_or_enum S n = true <-> leaf_name S n.
  Proof.
    unfold scalar_or_enum, leaf_name. destruct (get_type S n) as [t|]; [|split; [discriminate|intros (t & H & _); discriminate]].
    split.
    - intros H. exists t. split; auto. destruct t; cbn; auto; discriminate.
    - intros (t' & E & H). injection E as <-. destruct t; cbn in H; auto; destruct H.
  Qed.
  Lemma same_type_shape_iff a : forall b, same_type_shape S a b = true <-> same_shape_type S a b.
  Proof.
    induction a as [n r|a IH r]; intros [n' r'|b r']; cbn [same_type_shape].
    - rewrite Bool.andb_true_iff, Bool.orb_true_iff, Bool.negb_true_iff, Bool.orb_false_iff, Bool.eqb_true_iff, teqb_eq. split.
      + intros [-> H]. destruct (scalar_or_enum S n) eqn:E1.
        * destruct H as [[H _]|<-]; [discriminate|]. apply ss_leaf. apply scalar_or_enum_leaf; auto.
        * destruct (scalar_or_enum S n') eqn:E2; [destruct H as [[_ H]| <-]; [discriminate|congruence]|].
          apply ss_composite; intros K; apply scalar_or_enum_leaf in K; congruence.
      + intros H. inversion H as [n0 r0 Hl|n0 n0' r0 H1 H2|]; subst; split; auto. left. split.
        * destruct (scalar_or_enum S n) eqn:E; auto. apply scalar_or_enum_leaf in E. tauto.
        * destruct (scalar_or_enum S n') eqn:E; auto. apply scalar_or_enum_leaf in E. tauto.
    - split; [discriminate|]. intros H; inversion H.
    - split; [discriminate|]. intros H; inversion H.
    - rewrite Bool.andb_true_iff, Bool.eqb_true_iff, IH. split.
      + intros [-> H]. constructor; auto.
      + intros H. inversion H; subst. auto.
  Qed.
  Lemma shape_refl a : same_shape_type S a a.
  Proof.
    induction a as [n r|a IH r]; [|constructor; auto]. destruct (scalar_or_enum S n) eqn:E.
    - apply ss_leaf, scalar_or_enum_leaf; auto.
    - apply ss_composite; intros H; apply scalar_or_enum_leaf in H; congruence.
  Qed.
  Lemma shape_sym a b : same_shape_type S a b -> same_shape_type S b a.
  Proof. induction 1; constructor; auto. Qed.
  Lemma shape_trans a b : same_shape_type S a b -> forall c, same_shape_type S b c -> same_shape_type S a c.
  Proof.
    induction 1 as [n r Hl|n n' r H1 H2|a b r H IH]; intros c Hc; auto; inversion Hc; subst.
    - contradiction.
    - constructor; auto.
    - constructor; auto.
  Qed.
End Types.

Definition args_plain (a : list argument) : Prop := f64s (VObj a) /\ no_nan (VObj a).
Lemma args_equivalent_iff a b : args_plain a -> args_plain b -> arguments_equivalent a b = true <-> same_value (VObj a) (VObj b).
Proof. intros [Ha _] [Hb _]. rewrite arguments_eqb. apply value_eqb_same; auto. Qed.

Definition sf_of (x : fctx) : sfield :=
  {| sf_alias := cx_alias x; sf_name := cx_name x; sf_args := cx_args x; sf_sub := cx_sub x; sf_def := cx_def x; sf_parent := cx_type x |}.
Lemma sf_of_key x : sf_key (sf_of x) = cx_key x.
Proof. reflexivity. Qed.

Definition seen (st : mstate) (id : set_id) : Prop := lookup id (ms_cache st) <> None.
Definition clean (st : mstate) : Prop := forall id es, lookup id (ms_cache st) = Some es -> es = [].
Definition extends (st st' : mstate) : Prop := forall id es, lookup id (ms_cache st) = Some es -> lookup id (ms_cache st') = Some es.
Lemma extends_refl st : extends st st.
Proof. intros id es H. exact H. Qed.
Lemma extends_trans a b c : extends a b -> extends b c -> extends a c.
Proof. intros H K id es E. apply K, H, E. Qed.
Lemma extends_clean st st' : extends st st' -> clean st' -> clean st.
Proof. intros H K id es E. eapply K, H, E. Qed.
Lemma extends_seen st st' id : extends st st' -> seen st id -> seen st' id.
Proof. unfold seen. intros H K E. destruct (lookup id (ms_cache st)) as [es|] eqn:E'; [|auto]. apply H in E'. congruence. Qed.
Lemma is_nil_spec {A} (l : list A) : is_nil l = true <-> l = [].
Proof. destruct l; split; cbn; congruence. Qed.

(** * Conflicts by depth *)
Section Conflicts.
  Variable S : schema.
  Variable d : document.
  Variable meet : sfield -> sfield -> Prop.
  Inductive sconf : nat -> sfield -> sfield -> Prop :=
  | sconf_type n x y : ~ same_shape_type S (fd_type (sf_def x)) (fd_type (sf_def y)) -> sconf n x y
  | sconf_below n x y x' y' : merged S d x y x' y' -> sconf n x' y' -> sconf (1 + n) x y.
  Inductive pconf : nat -> sfield -> sfield -> Prop :=
  | pconf_name n x y : meet x y -> sf_name x <> sf_name y -> pconf n x y
  | pconf_args n x y : meet x y -> ~ same_value (VObj (sf_args x)) (VObj (sf_args y)) -> pconf n x y
  | pconf_below n x y x' y' : meet x y -> merged S d x y x' y' -> pconf n x' y' -> pconf (1 + n) x y.
  Lemma sconf_iff x y : shapes_conflict S d x y <-> exists n, sconf n x y.
  Proof.
    split.
    - induction 1 as [x y H|x y x' y' Hm H [n IH]]; [exists 0; constructor; auto|]. exists (1 + n). eapply sconf_below; eauto.
    - intros [n H]. induction H; [apply sc_type; auto|eapply sc_below; eauto].
  Qed.
  Lemma pconf_iff x y : selections_conflict S d meet x y <-> exists n, pconf n x y.
  Proof.
    split.
    - induction 1 as [x y H|x y H|x y x' y' H Hm Hc [n IH]]; [exists 0; constructor; auto|exists 0; apply pconf_args; auto|].
      exists (1 + n). eapply pconf_below; eauto.
    - intros [n H]. induction H; [apply fc_name; auto|apply fc_args; auto|eapply fc_below; eauto].
  Qed.
End Conflicts.

Section Rule.
  Variable S : schema.
  Variable d : document.
  Variable ord : nat -> list (list fctx) -> list (list fctx).
  Hypothesis ord_In : forall k l g, In g (ord k l) <-> In g l.
  Set Default Proof Using "Type".

  Lemma order_Some l st gs st' : in_some_order ord l st = Some (gs, st') -> (forall g, In g gs <-> In g l) /\ ms_cache st' = ms_cache st.
  Proof using ord_In. unfold in_some_order. intros E. injection E as <- <-. split; auto. Qed.

  (** * Fragments *)
  Lemma mapi_from_cons {A B} (f : nat -> A -> B) k x l : mapi_from f k (x :: l) = f k x :: mapi_from f (Datatypes.S k) l.
  Proof. reflexivity. Qed.
  Lemma fragment_named_iff n f : defines d n f <-> exists i, fragment_named d n = Some (i, f).
  Proof.
    unfold defines, fragment_named, mapi. generalize 0 as k. induction (doc_frags d) as [|g l IH]; intros k.
    - split; [intros (b & a & E & _); destruct b; discriminate|intros [i H]; discriminate].
    - rewrite mapi_from_cons. cbn [assoc_last]. split.
      + intros (b & a & E & Hn & Ha). destruct b as [|g' b]; cbn in E; injection E as -> ->.
        * assert (E : assoc_last n (mapi_from (fun i f0 => (fr_name f0, (i, f0))) (Datatypes.S k) a) = None).
          { apply assoc_last_None. intros H. apply Ha. apply in_map_iff in H as ([n' [i f']] & <- & H). apply mapi_from_In in H as (j & x & Hj & E).
            injection E as -> _ _. change (In (fr_name x) (map fr_name a)). apply in_map. eapply nth_error_In; eauto. }
          rewrite E, Hn, teqb_refl. eauto.
        * destruct (proj1 (IH (Datatypes.S k))) as [i E]; [exists b, a; auto|]. rewrite E. eauto.
      + intros [i E]. destruct (assoc_last n (mapi_from (fun i f0 => (fr_name f0, (i, f0))) (Datatypes.S k) l)) as [p|] eqn:E1.
        * injection E as ->. destruct (proj2 (IH (Datatypes.S k))) as (b & a & -> & Hn & Ha); [eauto|].
          exists (g :: b), a. auto.
        * destruct (teqb n (fr_name g)) eqn:Et; [|discriminate]. apply teqb_eq in Et. injection E as <- <-.
          exists [], l. split; auto. split; auto. intros H. apply assoc_last_None in E1. apply E1. apply in_map_iff in H as (f' & Ef & H).
          apply In_nth_error in H as [j Hj]. apply in_map_iff. exists (n, (Datatypes.S k + j, f')). split; auto. apply mapi_from_In. exists j, f'. rewrite Ef. auto.
  Qed.
  Lemma fragment_named_defines n i f : fragment_named d n = Some (i, f) -> defines d n f.
  Proof. intros H. apply fragment_named_iff. eauto. Qed.

  (** * Selection sets with their places and types *)
  Inductive lexical : set_id -> list selection -> tdef -> Prop :=
  | lex_top r t sels : top S d r t sels -> lexical (r, []) sels t
  | lex_field id sels t j al n args ds sub fd t1 :
      lexical id sels t -> nth_error sels j = Some (SField al n args ds sub) -> sub <> [] -> has_field t n fd ->
      get_type S (tref_base (fd_type fd)) = Some t1 -> lexical (inner_id id j) sub t1
  | lex_inline id sels t j ds sub : lexical id sels t -> nth_error sels j = Some (SInline None ds sub) -> lexical (inner_id id j) sub t
  | lex_inline_on id sels t j c ds sub t1 :
      lexical id sels t -> nth_error sels j = Some (SInline (Some c) ds sub) -> get_type S c = Some t1 -> lexical (inner_id id j) sub t1.

  Lemma root_type_fun ty t t' : root_type S ty t -> root_type S ty t' -> t = t'.
  Proof. destruct ty; cbn; [congruence| |]; intros (n & H1 & H2) (n' & H3 & H4); congruence. Qed.
  Lemma lexical_fun id sels t : lexical id sels t -> forall sels' t', lexical id sels' t' -> sels' = sels /\ t' = t.
  Proof.
    assert (K : forall p r sels t sels' t', lexical (r, p) sels t -> lexical (r, p) sels' t' -> sels' = sels /\ t' = t).
    { clear. induction p as [|j p IH]; intros r sels t sels' t' H H'.
      - inversion H as [r0 t0 s0 Ht| | |]; subst; [|unfold inner_id in *; congruence..]. inversion H' as [r0 t0 s0 Ht'| | |]; subst; [|unfold inner_id in *; congruence..].
        inversion Ht as [i o t0 Hi Hr|i f t0 Hi Hr]; subst; inversion Ht' as [i' o' t0' Hi' Hr'|i' f' t0' Hi' Hr']; subst.
        + assert (o' = o) by congruence. subst. split; auto. eapply root_type_fun; eauto.
        + assert (f' = f) by congruence. subst. split; auto. congruence.
      - assert (P : forall s u, lexical (r, j :: p) s u -> exists s0 u0 x, lexical (r, p) s0 u0 /\ nth_error s0 j = Some x /\
                  ((exists al n args ds fd, x = SField al n args ds s /\ has_field u0 n fd /\ get_type S (tref_base (fd_type fd)) = Some u) \/
                   (exists ds, x = SInline None ds s /\ u = u0) \/ (exists c ds, x = SInline (Some c) ds s /\ get_type S c = Some u))).
        { clear. intros s u H. remember (r, j :: p) as i eqn:Ei.
          destruct H as [r' t sels Ht|id sels t j' al n args ds sub fd t1 Hl Hj Hs Hf Ht|id sels t j' ds sub Hl Hj|id sels t j' c ds sub t1 Hl Hj Ht]; [discriminate| | |];
            destruct id as [r' p']; unfold inner_id in Ei; cbn in Ei; injection Ei as -> -> ->; eexists _, _, _; (split; [exact Hl|]); (split; [exact Hj|]);
            [left|right; left|right; right]; eauto 10. }
        apply P in H as (s0 & u0 & x & Hl & Hj & Hx). apply P in H' as (s0' & u0' & x' & Hl' & Hj' & Hx').
        destruct (IH _ _ _ _ _ Hl Hl') as [-> ->]. rewrite Hj in Hj'. injection Hj' as <-.
        destruct Hx as [(al & n & args & ds & fd & -> & Hf & Ht)|[(ds & -> & ->)|(c & ds & -> & Ht)]];
          destruct Hx' as [(al' & n' & args' & ds' & fd' & Ex & Hf' & Ht')|[(ds' & Ex & ->)|(c' & ds' & Ex & Ht')]]; try discriminate Ex;
          injection Ex; intros; subst; split; auto; unfold has_field in *; congruence. }
    destruct id. intros H sels' t' H'. eapply K; eauto.
  Qed.
  Lemma lexical_place id sels t : lexical id sels t -> place d id sels.
  Proof.
    induction 1 as [r t sels Ht|id sels t j al n args ds sub fd t1 Hl IH Hj|id sels t j ds sub Hl IH Hj|id sels t j c ds sub t1 Hl IH Hj Ht];
      [destruct Ht; constructor; auto|eapply pl_field; eauto|eapply pl_inline; eauto|eapply pl_inline; eauto].
  Qed.

  Lemma within_trans t sels t1 s1 : within S t sels t1 s1 -> forall t2 s2, within S t1 s1 t2 s2 -> within S t sels t2 s2.
  Proof. induction 1; intros; auto; [eapply within_field|eapply within_inline|eapply within_inline_on]; eauto. Qed.
  Lemma lexical_set_at id sels t : lexical id sels t -> set_at S d (fst id) t sels.
  Proof.
    assert (K : forall r t sels t1 s1, set_at S d r t sels -> within S t sels t1 s1 -> set_at S d r t1 s1).
    { intros r t0 s0 t1 s1 (t2 & s2 & Ht & Hw) H. exists t2, s2. split; auto. eapply within_trans; eauto. }
    induction 1 as [r t sels Ht|id sels t j al n args ds sub fd t1 Hl IH Hj Hs Hf Ht|id sels t j ds sub Hl IH Hj|id sels t j c ds sub t1 Hl IH Hj Ht]; cbn in *.
    - exists t, sels. split; auto. constructor.
    - eapply K; [exact IH|]. eapply within_field; eauto; [eapply nth_error_In; eauto|constructor].
    - eapply K; [exact IH|]. eapply within_inline; eauto; [eapply nth_error_In; eauto|constructor].
    - eapply K; [exact IH|]. eapply within_inline_on; eauto; [eapply nth_error_In; eauto|constructor].
  Qed.
  Lemma set_at_lexical r t sels : set_at S d r t sels -> exists p, lexical (r, p) sels t.
  Proof.
    intros (t0 & s0 & Ht & Hw). assert (H : exists p, lexical (r, p) s0 t0) by (exists []; constructor; auto). clear Ht.
    induction Hw as [t s|t s al n args ds sub fd t1 t' s' Hin Hs Hf Ht Hw IH|t s ds sub t' s' Hin Hw IH|t s c ds sub t1 t' s' Hin Ht Hw IH]; auto;
      destruct H as [p H]; apply In_nth_error in Hin as [j Hj]; apply IH; exists (j :: p); change (r, j :: p) with (inner_id (r, p) j).
    - eapply lex_field; eauto.
    - eapply lex_inline; eauto.
    - eapply lex_inline_on; eauto.
  Qed.

  (** the sets passed by the orchestrator are these *)
  Lemma sets_in_lexical : forall s id sels t j e, nth_error sels j = Some s -> lexical id sels t -> In e (sets_in S id t j s) -> lexical (fst (fst e)) (snd (fst e)) (snd e).
  Proof.
    induction s as [al n args ds sub IH|n ds|c ds sub IH] using selection_ind'; intros id sels t j e Hj Hl He.
    - rewrite sets_in_field in He. destruct (get_field (td_fields t) n) as [fd|] eqn:Ef; [|destruct He].
      destruct sub as [|s sub]; [destruct He|]. destruct (get_type S (tref_base (fd_type fd))) as [t'|] eqn:Et; [|destruct He].
      rewrite Forall_forall in IH. assert (Hl' : lexical (inner_id id j) (s :: sub) t') by (eapply lex_field; eauto; discriminate).
      destruct He as [<-|He]; [exact Hl'|]. apply (proj1 (sets_from_In _ _ _ _ _ _)) in He as (k & s' & Hk & He). eapply IH; eauto. eapply nth_error_In; eauto.
    - destruct He.
    - rewrite sets_in_inline in He. destruct (match c with Some c => get_type S c | None => Some t end) as [t'|] eqn:Et; [|destruct He].
      rewrite Forall_forall in IH. assert (Hl' : lexical (inner_id id j) sub t').
      { destruct c; [eapply lex_inline_on; eauto|]. injection Et as <-. eapply lex_inline; eauto. }
      destruct He as [<-|He]; [exact Hl'|]. apply (proj1 (sets_from_In _ _ _ _ _ _)) in He as (k & s' & Hk & He). eapply IH; eauto. eapply nth_error_In; eauto.
  Qed.
  Lemma sets_of_lexical id t sels e : lexical id sels t -> In e (sets_of S id t sels) -> lexical (fst (fst e)) (snd (fst e)) (snd e).
  Proof.
    intros Hl [<-|He]; [exact Hl|]. apply (proj1 (sets_from_In _ _ _ _ _ _)) in He as (k & s' & Hk & He). eapply sets_in_lexical; eauto.
  Qed.
  Lemma op_root_type ty n t : op_root_name S ty = Some n -> get_type S n = Some t -> root_type S ty t.
  Proof. destruct ty; cbn; intros H; [injection H as <-; auto|eauto|eauto]. Qed.
  Lemma document_sets_lexical e : In e (document_sets S d) -> lexical (fst (fst e)) (snd (fst e)) (snd e).
  Proof.
    unfold document_sets, mapi. intros H. apply in_app_iff in H as [H|H]; apply in_concat in H as (l & Hl & He); apply mapi_from_In in Hl as (i & x & Hi & ->).
    - destruct (op_root_name S (op_type x)) as [n|] eqn:En; [|destruct He]. destruct (get_type S n) as [t|] eqn:Et; [|destruct He].
      eapply sets_of_lexical; [|exact He]. constructor. constructor; auto. eapply op_root_type; eauto.
    - destruct (get_type S (fr_cond x)) as [t|] eqn:Et; [|destruct He].
      eapply sets_of_lexical; [|exact He]. constructor. apply (top_frag S d i x t); auto.
  Qed.
  Lemma lexical_document_sets id sels t : lexical id sels t -> In (id, sels, t) (document_sets S d) /\ incl (sets_of S id t sels) (document_sets S d).
  Proof.
    intros H. assert (K : incl (sets_of S id t sels) (document_sets S d)); [|split; auto; apply K; left; auto].
    induction H as [r t sels Ht|id sels t j al n args ds sub fd t1 Hl IH Hj Hs Hf Ht|id sels t j ds sub Hl IH Hj|id sels t j c ds sub t1 Hl IH Hj Ht].
    - intros e He. destruct Ht as [i o t Hi Hr|i f t Hi Hr]; apply in_app_iff; [left|right]; apply in_concat; eexists; (split; [|exact He]); unfold mapi; apply mapi_from_In.
      + exists i, o. split; auto. destruct (op_type o); cbn in *; [rewrite Hr; auto| |]; destruct Hr as (n & -> & Hn); rewrite Hn; auto.
      + exists i, f. rewrite Hr. auto.
    - intros e He. apply IH. right. apply (sets_from_In S). exists j, (SField al n args ds sub). split; auto. rewrite sets_in_field. unfold has_field in Hf. rewrite Hf.
      destruct sub; [congruence|]. rewrite Ht. exact He.
    - intros e He. apply IH. right. apply (sets_from_In S). exists j, (SInline None ds sub). split; auto. rewrite sets_in_inline. exact He.
    - intros e He. apply IH. right. apply (sets_from_In S). exists j, (SInline (Some c) ds sub). split; auto. rewrite sets_in_inline, Ht. exact He.
  Qed.

  (** * Fragments entered never repeat without cycles *)
  Definition frags_ok (r : root) (frags : list name) : Prop :=
    forall m, In m frags -> exists i f, r = RFrag i /\ nth_error (doc_frags d) i = Some f /\ defines d (fr_name f) f /\ star (fragment_uses d) m (fr_name f).
  Lemma frags_ok_nil r : frags_ok r [].
  Proof. intros m []. Qed.
  Lemma place_spread id sels n ds : place d id sels -> In (SSpread n ds) sels ->
    match fst id with RFrag i => forall f, nth_error (doc_frags d) i = Some f -> spreads n (fr_sel f) | ROp _ => True end.
  Proof.
    intros Hp Hin. assert (Hs : spreads n sels) by (exists (SSpread n ds); split; auto; constructor). clear Hin.
    induction Hp as [i o Ho|i f Hf|id sels j al n' args ds' sub Hp IH Hj|id sels j c ds' sub Hp IH Hj]; cbn in *; auto.
    - intros f' Hf'. assert (f' = f) by congruence. subst. auto.
    - apply IH. destruct Hs as (s & Hs & Hn). exists (SField al n' args ds' sub). split; [eapply nth_error_In; eauto|]. econstructor; eauto.
    - apply IH. destruct Hs as (s & Hs & Hn). exists (SInline c ds' sub). split; [eapply nth_error_In; eauto|]. econstructor; eauto.
  Qed.
  Lemma frags_ok_fresh id sels n ds frags : acyclic d -> place d id sels -> In (SSpread n ds) sels -> frags_ok (fst id) frags -> tmem n frags = false.
  Proof.
    intros Ha Hp Hin Hf. destruct (tmem n frags) eqn:E; auto. exfalso. apply tmem_In in E. destruct (Hf n E) as (i & f & Er & Hi & Hd & Hst).
    pose proof (place_spread id sels n ds Hp Hin) as Hs. rewrite Er in Hs. apply (Ha n). eapply star_snoc_plus; [exact Hst|]. exists f. split; auto.
  Qed.
  Lemma frags_ok_cons id sels n ds i f frags : place d id sels -> In (SSpread n ds) sels -> frags_ok (fst id) frags -> fragment_named d n = Some (i, f) -> frags_ok (RFrag i) (n :: frags).
  Proof.
    intros Hp Hin Hf Hn m Hm. pose proof (fragment_named_defines _ _ _ Hn) as Hd. apply fragment_named_spec in Hn as [Hi <-]. exists i, f. split; auto. split; auto. split; auto.
    destruct Hm as [<-|Hm]; [constructor|]. destruct (Hf m Hm) as (i0 & f0 & Er & Hi0 & Hd0 & Hst). eapply star_trans; [exact Hst|]. apply star_one. exists f0. split; auto.
    pose proof (place_spread id sels (fr_name f) ds Hp Hin) as Hs. rewrite Er in Hs. auto.
  Qed.
End Rule.
