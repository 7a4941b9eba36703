(** Resolution of definition documents against ResolveSpec.v. *)
From Coq Require Import String Sorted Permutation.
From Verif Require Import Base Ast Maps DefParser Resolve ResolveSpec.
From Coq Require Import Lia.

(** ** Sorted maps *)
Lemma sorted_assoc_ext {A} (m m' : list (name * A)) : StronglySorted tlt (map fst m) -> StronglySorted tlt (map fst m') ->
  (forall k, assoc k m = assoc k m') -> m = m'.
Proof.
  revert m'. induction m as [|[k a] m IH]; intros [|[k' a'] m'] S S' E; [reflexivity | | |].
  - specialize (E k'). cbn in E. rewrite teqb_refl in E. discriminate.
  - specialize (E k). cbn in E. rewrite teqb_refl in E. discriminate.
  - cbn [map fst] in S, S'. inversion S as [|? ? S1 F1]; subst. inversion S' as [|? ? S1' F1']; subst. rewrite Forall_forall in F1, F1'.
    assert (Hk : k = k').
    { destruct (tcmp k k') eqn:C.
      - now apply tcmp_eq.
      - pose proof (E k) as E1. cbn in E1. rewrite teqb_refl in E1. destruct (teqb_spec k k') as [->|N]; [rewrite tcmp_refl in C; discriminate|].
        symmetry in E1. apply assoc_In in E1. apply (in_map fst) in E1. cbn in E1. apply F1' in E1. unfold tlt in E1. rewrite tcmp_sym, C in E1. discriminate.
      - pose proof (E k') as E1. cbn in E1. rewrite teqb_refl in E1. destruct (teqb_spec k' k) as [->|N]; [rewrite tcmp_refl in C; discriminate|].
        apply assoc_In in E1. apply (in_map fst) in E1. cbn in E1. apply F1 in E1. unfold tlt in E1. rewrite C in E1. discriminate. }
    subst k'. pose proof (E k) as E1. cbn in E1. rewrite teqb_refl in E1. injection E1 as <-. f_equal. apply IH; auto.
    intros x. specialize (E x). cbn in E. destruct (teqb x k) eqn:Q; [apply teqb_eq in Q; subst x|exact E].
    assert (Z : forall n : list (name * A), (forall y, In y (map fst n) -> tlt k y) -> assoc k n = None).
    { intros n H. apply assoc_None. intros I. exact (tlt_irrefl _ (H _ I)). }
    now rewrite !Z.
Qed.

(** ** Indexing *)
Section Index.
  Context {A : Type} (key : A -> name).
  Notation wk := (with_key key).
  Lemma with_key_app k l l' : wk k (l ++ l') = wk k l ++ wk k l'.
  Proof. apply filter_app. Qed.
  Lemma with_key_one k x : wk k [x] = if teqb (key x) k then [x] else [].
  Proof. reflexivity. Qed.
  Definition index_ok (l : list A) (m : list (name * A) * list (name * list A)) : Prop :=
    StronglySorted tlt (map fst (fst m)) /\ StronglySorted tlt (map fst (snd m)) /\
    (forall k, assoc k (fst m) = hd_error (wk k l)) /\
    (forall k, assoc k (snd m) = if Nat.ltb 1 (length (wk k l)) then Some (wk k l) else None).
  Lemma index_step_ok l m x : index_ok l m -> index_ok (l ++ [x]) (index_step key m x).
  Proof.
    destruct m as [ix dp]. intros (S1 & S2 & H1 & H2). unfold index_step. cbn [fst snd] in *.
    pose proof (H1 (key x)) as K1. pose proof (H2 (key x)) as K2.
    destruct (assoc (key x) ix) as [first|] eqn:E.
    - repeat split; cbn [fst snd]; auto; [now apply tinsert_sorted | |].
      + intros k. rewrite H1, with_key_app, with_key_one. destruct (teqb_spec (key x) k) as [<-|N]; [|now rewrite app_nil_r].
        destruct (wk (key x) l); [discriminate | reflexivity].
      + intros k. rewrite tinsert_assoc by exact S2. rewrite with_key_app, with_key_one, (teqb_sym (key x) k). destruct (teqb_spec k (key x)) as [->|N].
        * rewrite K2. destruct (wk (key x) l) as [|a [|b w]]; [discriminate| |]; cbn in K1 |- *; [injection K1 as <-; reflexivity|].
          reflexivity.
        * now rewrite H2, app_nil_r.
    - assert (W : wk (key x) l = []) by (destruct (wk (key x) l); [reflexivity|discriminate]).
      repeat split; cbn [fst snd]; auto; [now apply tinsert_sorted | |].
      + intros k. rewrite tinsert_assoc by exact S1. rewrite with_key_app, with_key_one, (teqb_sym (key x) k). destruct (teqb_spec k (key x)) as [->|N].
        * now rewrite W.
        * now rewrite app_nil_r.
      + intros k. rewrite H2, with_key_app, with_key_one. destruct (teqb_spec (key x) k) as [<-|N].
        * now rewrite W.
        * now rewrite app_nil_r.
  Qed.
  Lemma index_ok_all l : index_ok l (index key l).
  Proof.
    unfold index. assert (H : index_ok [] ([], [])) by (repeat split; try constructor).
    enough (G : forall l' pre m, index_ok pre m -> index_ok (pre ++ l') (fold_left (index_step key) l' m)) by exact (G l [] _ H).
    clear. induction l' as [|x l' IH]; intros pre m H; cbn [fold_left]; [now rewrite app_nil_r|].
    specialize (IH (pre ++ [x]) _ (index_step_ok _ _ x H)). now rewrite <- app_assoc in IH.
  Qed.
  Lemma index_ext l l' : (forall k, wk k l = wk k l') -> index key l = index key l'.
  Proof.
    intros E. destruct (index_ok_all l) as (S1 & S2 & H1 & H2). destruct (index_ok_all l') as (S1' & S2' & H1' & H2').
    destruct (index key l) as [a b], (index key l') as [a' b']. cbn [fst snd] in *. f_equal; apply sorted_assoc_ext; auto; intros k; [rewrite H1, H1' | rewrite H2, H2']; now rewrite E.
  Qed.
  Lemma index_find l k : assoc k (fst (index key l)) = find (fun x => teqb (key x) k) l.
  Proof.
    destruct (index_ok_all l) as (_ & _ & H & _). rewrite H. unfold with_key. clear. induction l as [|x l IH]; cbn; [reflexivity|]. destruct (teqb (key x) k); auto.
  Qed.
  Lemma index_In l k a : assoc k (fst (index key l)) = Some a -> In a l /\ key a = k.
  Proof. rewrite index_find. intros H. apply find_some in H. destruct H as (I & E). apply teqb_eq in E. auto. Qed.
  Lemma index_None l k : assoc k (fst (index key l)) = None <-> forall a, In a l -> key a <> k.
  Proof.
    rewrite index_find. split.
    - intros H a I E. pose proof (find_none _ _ H a I) as F. cbn in F. apply teqb_neq in F. auto.
    - intros H. destruct (find _ l) eqn:E; [|reflexivity]. apply find_some in E. destruct E as (I & E). apply teqb_eq in E. now apply H in I.
  Qed.
  Lemma index_values_In l a : In a (map snd (fst (index key l))) -> In a l.
  Proof.
    intros H. apply in_map_iff in H. destruct H as ((k & b) & <- & I). apply assoc_NoDup in I; [|apply sorted_NoDup, index_ok_all]. now apply index_In in I.
  Qed.
  Lemma index_entries l : Forall (fun p => key (snd p) = fst p) (fst (index key l)).
  Proof.
    apply Forall_forall. intros [k a] I. apply assoc_NoDup in I; [|apply sorted_NoDup, index_ok_all]. now apply index_In in I.
  Qed.
  Lemma index_keys l : map key (map snd (fst (index key l))) = map fst (fst (index key l)).
  Proof.
    pose proof (index_entries l) as F. induction F as [|[k a] m E F IH]; [reflexivity|]. cbn in *. now f_equal.
  Qed.
  Lemma dups_In l k xs : In (k, xs) (snd (index key l)) <-> xs = wk k l /\ 2 <= length xs.
  Proof.
    destruct (index_ok_all l) as (_ & S2 & _ & H2). split.
    - intros I. apply assoc_NoDup in I; [|now apply sorted_NoDup]. rewrite H2 in I. destruct (Nat.ltb_spec 1 (length (wk k l))); [|discriminate]. injection I as <-. auto.
    - intros (-> & L). apply assoc_In. rewrite H2. destruct (Nat.ltb_spec 1 (length (wk k l))); [reflexivity|lia].
  Qed.
  Lemma dups_nil l : snd (index key l) = [] <-> NoDup (map key l).
  Proof.
    rewrite <- duplicates_nil. split; intros H.
    - destruct (duplicates key l) as [|[k xs] d] eqn:E; [reflexivity|]. assert (I : In (k, xs) (duplicates key l)) by (rewrite E; now left).
      apply duplicates_In, dups_In in I. rewrite H in I. destruct I.
    - destruct (snd (index key l)) as [|[k xs] d] eqn:E; [reflexivity|]. assert (I : In (k, xs) (snd (index key l))) by (rewrite E; now left).
      apply dups_In, duplicates_In in I. rewrite H in I. destruct I.
  Qed.
  Lemma NoDup_key_inj l a b : NoDup (map key l) -> In a l -> In b l -> key a = key b -> a = b.
  Proof.
    induction l as [|x l IH]; cbn; [tauto|]. intros ND. inversion_clear ND as [|? ? NI ND']. intros [<-|I] [<-|J] E; auto.
    - exfalso. apply NI. rewrite E. now apply in_map.
    - exfalso. apply NI. rewrite <- E. now apply in_map.
  Qed.
  Lemma index_NoDup l k a : NoDup (map key l) -> In a l -> key a = k -> assoc k (fst (index key l)) = Some a.
  Proof.
    intros ND I E. destruct (assoc k (fst (index key l))) as [b|] eqn:Q.
    - apply index_In in Q. destruct Q as (J & E'). f_equal. eapply NoDup_key_inj; eauto. congruence.
    - rewrite index_None in Q. now apply Q in I.
  Qed.
  Lemma index_perm l : NoDup (map key l) -> Permutation l (map snd (fst (index key l))).
  Proof.
    intros ND. assert (ND' : NoDup (map key (map snd (fst (index key l))))) by (rewrite index_keys; apply sorted_NoDup, index_ok_all).
    apply NoDup_Permutation; [eapply NoDup_map_inv; exact ND | eapply NoDup_map_inv; exact ND' |].
    intros a. split; [|apply index_values_In]. intros I. pose proof (index_NoDup _ _ _ ND I eq_refl) as Q. apply assoc_In in Q. apply in_map_iff. exists (key a, a). auto.
  Qed.
  Lemma index_sorted l : StronglySorted tlt (map key (map snd (fst (index key l)))).
  Proof. rewrite index_keys. apply index_ok_all. Qed.
End Index.

(** sorted permutations are unique *)
Lemma sorted_perm_eq {A} (key : A -> name) (l l' : list A) : StronglySorted tlt (map key l) -> StronglySorted tlt (map key l') -> Permutation l l' -> l = l'.
Proof.
  revert l'. induction l as [|a l IH]; intros l' S S' P.
  - apply Permutation_nil in P. now subst.
  - destruct l' as [|b l']; [apply Permutation_sym, Permutation_nil in P; discriminate|].
    cbn [map] in S, S'. inversion S as [|? ? S1 F1]; subst. inversion S' as [|? ? S1' F1']; subst. rewrite Forall_forall in F1, F1'.
    assert (E : a = b).
    { assert (I : In a (b :: l')) by (eapply Permutation_in; [exact P | now left]). destruct I as [<-|I]; [reflexivity|].
      assert (J : In b (a :: l)) by (eapply Permutation_in; [symmetry; exact P | now left]). destruct J as [<-|J]; [reflexivity|].
      exfalso. apply (tlt_irrefl (key a)). eapply tlt_trans; [apply F1, in_map, J | apply F1', in_map, I]. }
    subst b. apply Permutation_cons_inv in P. f_equal. now apply IH.
Qed.

(** ** References *)
Section References.
  Variable d : defdoc.
  Notation T := (df_types d).
  Notation D := (df_ddefs d).
  Notation types := (fst (index td_name T)).
  Notation ddefs := (fst (index dd_name D)).
  Notation has_directive x := (exists dd, In dd D /\ dd_name dd = dir_name x).

  Lemma resolve_directives_nil ds : resolve_directives ddefs ds = [] <-> forall x, In x ds -> has_directive x.
  Proof.
    unfold resolve_directives. rewrite flat_map_nil. split; intros H x I; specialize (H x I).
    - destruct (assoc (dir_name x) ddefs) as [dd|] eqn:E; [|discriminate]. exists dd. now apply index_In in E.
    - destruct H as (dd & I' & E). destruct (assoc (dir_name x) ddefs) eqn:Q; [reflexivity|]. rewrite index_None in Q. now apply Q in I'.
  Qed.
  Lemma resolve_directives_In ds e : In e (resolve_directives ddefs ds) ->
    exists x, e = DirectiveMissing x /\ In x ds /\ forall dd, In dd D -> dd_name dd <> dir_name x.
  Proof.
    unfold resolve_directives. intros H. apply in_flat_map in H. destruct H as (x & I & H). destruct (assoc (dir_name x) ddefs) eqn:Q; [destruct H|].
    destruct H as [<-|[]]. rewrite index_None in Q. eauto.
  Qed.
  Definition ivd_resolved (v : ivd) : Prop :=
    (exists u, assoc (tref_base (iv_type v)) types = Some u /\ td_is_input u = true) /\ forall x, In x (iv_dirs v) -> has_directive x.
  Lemma resolve_ivd_nil v : resolve_ivd types ddefs v = [] <-> ivd_resolved v.
  Proof.
    unfold resolve_ivd, ivd_resolved. rewrite <- resolve_directives_nil. split.
    - intros H. apply app_eq_nil in H. destruct H as (H1 & H2). split; [|exact H2]. destruct (assoc _ types) as [u|]; [|discriminate]. exists u. destruct (td_is_input u); [auto|discriminate].
    - intros ((u & -> & ->) & ->). reflexivity.
  Qed.
  Lemma resolve_ivds_nil l : flat_map (resolve_ivd types ddefs) l = [] <-> forall v, In v l -> ivd_resolved v.
  Proof. rewrite flat_map_nil. split; intros H v I; apply resolve_ivd_nil; auto. Qed.
  Lemma resolve_ivd_In v e : value_defined T D v -> In e (resolve_ivd types ddefs v) -> derror_true d e.
  Proof.
    intros V H. unfold resolve_ivd in H. apply in_app_iff in H. destruct H as [H|H].
    - destruct (assoc _ types) as [u|] eqn:E.
      + apply index_In in E. destruct E as (I & E). destruct (td_is_input u) eqn:N; [destruct H|]. destruct H as [<-|[]]. cbn. exists v, u. auto.
      + destruct H as [<-|[]]. cbn. rewrite index_None in E. split; [now apply rf_value | exact E].
    - apply resolve_directives_In in H. destruct H as (x & -> & I & N). cbn. split; [eapply du_value; eauto | exact N].
  Qed.
  Lemma resolve_interfaces_nil l : resolve_interfaces types l = [] <-> forall n, In n l -> exists i, assoc n types = Some (DInterface i).
  Proof.
    unfold resolve_interfaces. rewrite flat_map_nil. split; intros H n I; specialize (H n I).
    - destruct (assoc n types) as [[]|]; try discriminate. eauto.
    - destruct H as (i & ->). reflexivity.
  Qed.
  Lemma resolve_interfaces_In t l e : In t T -> (forall n, In n l -> implements t n) -> In e (resolve_interfaces types l) -> derror_true d e.
  Proof.
    intros It Im H. unfold resolve_interfaces in H. apply in_flat_map in H. destruct H as (n & I & H).
    destruct (assoc n types) as [u|] eqn:E.
    - apply index_In in E. destruct E as (J & E).
      assert (K : e = NotInterface n /\ forall i, u <> DInterface i) by (destruct u; cbn in H; try destruct H as [<-|[]]; try destruct H; split; auto; congruence).
      destruct K as (-> & K). cbn. exists t, u. auto.
    - destruct H as [<-|[]]. cbn. rewrite index_None in E. split; [eapply rf_interface; eauto | exact E].
  Qed.
  Definition fdef_resolved (f : fdef) : Prop :=
    (exists u, assoc (tref_base (fd_type f)) types = Some u /\ td_is_output u = true) /\ (forall v, In v (fd_args f) -> ivd_resolved v) /\
    forall x, In x (fd_dirs f) -> has_directive x.
  Lemma resolve_fdef_nil f : resolve_fdef types ddefs f = [] <-> fdef_resolved f.
  Proof.
    unfold resolve_fdef, fdef_resolved. rewrite <- resolve_directives_nil, <- resolve_ivds_nil. split.
    - intros H. apply app_eq_nil in H. destruct H as (H1 & H2). apply app_eq_nil in H2. destruct H2 as (H2 & H3). split; [|auto]. destruct (assoc _ types) as [u|]; [|discriminate]. exists u. destruct (td_is_output u); [auto|discriminate].
    - intros ((u & -> & ->) & -> & ->). reflexivity.
  Qed.
  Lemma resolve_fdefs_nil l : flat_map (resolve_fdef types ddefs) l = [] <-> forall f, In f l -> fdef_resolved f.
  Proof. rewrite flat_map_nil. split; intros H v I; apply resolve_fdef_nil; auto. Qed.
  Lemma resolve_fdefs_In t l e : In t T -> (forall f, In f l -> In f (td_fields t)) -> In e (flat_map (resolve_fdef types ddefs) l) -> derror_true d e.
  Proof.
    intros It F H. apply in_flat_map in H. destruct H as (f & If & H). apply F in If. unfold resolve_fdef in H. rewrite !in_app_iff in H. destruct H as [H|[H|H]].
    - destruct (assoc _ types) as [u|] eqn:E.
      + apply index_In in E. destruct E as (J & E). destruct (td_is_output u) eqn:N; [destruct H|]. destruct H as [<-|[]]. cbn. exists t, f, u. auto 10.
      + destruct H as [<-|[]]. cbn. rewrite index_None in E. split; [eapply rf_field; eauto | exact E].
    - apply in_flat_map in H. destruct H as (v & Iv & H). eapply resolve_ivd_In; [|exact H]. eapply vd_argument; eauto.
    - apply resolve_directives_In in H. destruct H as (x & -> & I & N). cbn. split; [eapply du_field; eauto | exact N].
  Qed.
  Lemma own_directives_In t e : In t T -> In e (resolve_directives ddefs (own_directives t)) -> derror_true d e.
  Proof. intros It H. apply resolve_directives_In in H. destruct H as (x & -> & I & N). cbn. split; [eapply du_type; eauto | exact N]. Qed.
  Lemma resolve_tdef_In t e : In t T -> In e (resolve_tdef types ddefs t) -> derror_true d e.
  Proof.
    intros It H. destruct t as [b|s|o|i|en|u|i]; cbn [resolve_tdef] in H; rewrite ?in_app_iff in H.
    - destruct H.
    - exact (own_directives_In (DScalar s) e It H).
    - destruct H as [H|[H|H]].
      + eapply (resolve_fdefs_In (DObject o)); [exact It | | exact H]. auto.
      + eapply (resolve_interfaces_In (DObject o)); [exact It | | exact H]. auto.
      + exact (own_directives_In (DObject o) e It H).
    - destruct H as [H|H].
      + apply in_flat_map in H. destruct H as (v & Iv & H). eapply resolve_ivd_In; [|exact H]. eapply vd_input_field; eauto.
      + exact (own_directives_In (DInput i) e It H).
    - destruct H as [H|H]; [exact (own_directives_In (DEnum en) e It H)|].
      apply in_flat_map in H. destruct H as (v & Iv & H). apply resolve_directives_In in H. destruct H as (x & -> & I & N). cbn. split; [eapply du_enum_value; eauto | exact N].
    - destruct H as [H|[H|H]].
      + eapply (resolve_fdefs_In (DUnion u)); [exact It | | exact H]. auto.
      + apply in_flat_map in H. destruct H as (n & I & H). destruct (assoc n types) as [t|] eqn:E.
        * apply index_In in E. destruct E as (J & E).
          assert (K : e = MemberNotObject n /\ forall i, t <> DObject i) by (destruct t; cbn in H; try destruct H as [<-|[]]; try destruct H; split; auto; congruence).
          destruct K as (-> & K). cbn. exists u, t. auto.
        * destruct H as [<-|[]]. cbn. rewrite index_None in E. split; [eapply rf_member; eauto | exact E].
      + exact (own_directives_In (DUnion u) e It H).
    - destruct H as [H|[H|H]].
      + eapply (resolve_fdefs_In (DInterface i)); [exact It | | exact H]. auto.
      + eapply (resolve_interfaces_In (DInterface i)); [exact It | | exact H]. auto.
      + exact (own_directives_In (DInterface i) e It H).
  Qed.
  Lemma resolve_all_In e : In e (resolve_all types ddefs) -> derror_true d e.
  Proof.
    unfold resolve_all. rewrite in_app_iff. intros [H|H]; apply in_flat_map in H; destruct H as (x & I & H); apply index_values_In in I.
    - now apply resolve_tdef_In in H.
    - apply in_flat_map in H. destruct H as (v & Iv & H). eapply resolve_ivd_In; [|exact H]. eapply vd_directive_argument; eauto.
  Qed.

  (** *** No errors exactly when all references are right *)
  Hypothesis ND : NoDup (map td_name T).
  Hypothesis NDD : NoDup (map dd_name D).
  Lemma assoc_types n u : assoc n types = Some u <-> In u T /\ td_name u = n.
  Proof. split; [apply index_In|]. intros (I & E). now apply index_NoDup. Qed.
  Lemma values_types t : In t (map snd types) <-> In t T.
  Proof. split; apply Permutation_in; [symmetry|]; now apply index_perm. Qed.
  Lemma values_ddefs t : In t (map snd ddefs) <-> In t D.
  Proof. split; apply Permutation_in; [symmetry|]; now apply index_perm. Qed.
  Lemma resolve_all_nil : resolve_all types ddefs = [] <-> references_ok T D.
  Proof.
    unfold resolve_all. split.
    - intros H. apply app_eq_nil in H. destruct H as (H1 & H2). rewrite flat_map_nil in H1. rewrite flat_map_nil in H2.
      assert (K1 : forall t, In t T -> resolve_tdef types ddefs t = []) by (intros; now apply H1, values_types).
      assert (K2 : forall x v, In x D -> In v (dd_args x) -> ivd_resolved v).
      { intros x v I Iv. specialize (H2 x (proj2 (values_ddefs x) I)). rewrite resolve_ivds_nil in H2. auto. }
      assert (F : forall t f, In t T -> In f (td_fields t) -> fdef_resolved f).
      { intros t f I If. specialize (K1 t I). destruct t; cbn [td_fields] in If; try destruct If; cbn [resolve_tdef] in K1; apply app_eq_nil in K1; destruct K1 as (K1 & _); rewrite resolve_fdefs_nil in K1; auto. }
      assert (V : forall v, value_defined T D v -> ivd_resolved v).
      { intros v [i w I Iw|t f w I If Iw|x w I Iw].
        - specialize (K1 _ I). cbn [resolve_tdef] in K1. apply app_eq_nil in K1. destruct K1 as (K1 & _). rewrite resolve_ivds_nil in K1. auto.
        - now apply (F _ _ I If).
        - eauto. }
      split.
      + intros t f I If. destruct (F t f I If) as ((u & E & O) & _). apply assoc_types in E. destruct E. eauto.
      + intros v Hv. destruct (V v Hv) as ((u & E & O) & _). apply assoc_types in E. destruct E. eauto.
      + intros t n I Im. specialize (K1 t I). destruct t; cbn [implements] in Im; try destruct Im; cbn [resolve_tdef] in K1; apply app_eq_nil in K1; destruct K1 as (_ & K1); apply app_eq_nil in K1; destruct K1 as (K1 & _);
          rewrite resolve_interfaces_nil in K1; destruct (K1 n Im) as (i & E); apply assoc_types in E; destruct E; eauto.
      + intros u n I In'. specialize (K1 _ I). cbn [resolve_tdef] in K1. apply app_eq_nil in K1. destruct K1 as (_ & K1). apply app_eq_nil in K1. destruct K1 as (K1 & _).
        rewrite flat_map_nil in K1. specialize (K1 n In'). destruct (assoc n types) as [[]|] eqn:E; try discriminate. apply assoc_types in E. destruct E. eauto.
      + intros x [t y I J|t f y I If J|v y Hv J|e v y I Iv J].
        * specialize (K1 t I). apply (resolve_directives_nil (own_directives t)); [|exact J].
          destruct t; cbn [resolve_tdef own_directives] in *; try reflexivity; try exact K1; repeat (apply app_eq_nil in K1; destruct K1 as (?K & K1)); auto.
        * now apply (F t f I If).
        * now apply (V v Hv).
        * specialize (K1 _ I). cbn [resolve_tdef] in K1. apply app_eq_nil in K1. destruct K1 as (_ & K1). rewrite flat_map_nil in K1. specialize (K1 v Iv). rewrite resolve_directives_nil in K1. auto.
    - intros [R1 R2 R3 R4 R5].
      assert (V : forall v, value_defined T D v -> ivd_resolved v).
      { intros v Hv. split; [|intros x J; apply R5; eapply du_value; eauto]. destruct (R2 v Hv) as (u & I & E & O). exists u. split; [now apply assoc_types | exact O]. }
      assert (F : forall t f, In t T -> In f (td_fields t) -> fdef_resolved f).
      { intros t f I If. split; [|split].
        - destruct (R1 t f I If) as (u & J & E & O). exists u. split; [now apply assoc_types | exact O].
        - intros v Iv. apply V. eapply vd_argument; eauto.
        - intros x J. apply R5. eapply du_field; eauto. }
      assert (O : forall t, In t T -> resolve_directives ddefs (own_directives t) = []).
      { intros t I. apply resolve_directives_nil. intros x J. apply R5. eapply du_type; eauto. }
      assert (Q : forall t l, In t T -> (forall n, In n l -> implements t n) -> resolve_interfaces types l = []).
      { intros t l I Im. apply resolve_interfaces_nil. intros n J. destruct (R3 t n I (Im n J)) as (i & Ii & E). exists i. now apply assoc_types. }
      assert (E1 : flat_map (resolve_tdef types ddefs) (map snd types) = []).
      { apply flat_map_nil. intros t It. apply values_types in It. pose proof (O t It) as Ot. destruct t as [b|s|o|i|en|u|i]; cbn [resolve_tdef own_directives] in *; try reflexivity; try exact Ot.
        - rewrite Ot, (Q (DObject o)) by auto. rewrite (proj2 (resolve_fdefs_nil _)); [reflexivity|]. intros f If. now apply (F (DObject o)).
        - rewrite Ot, (proj2 (resolve_ivds_nil _)); [reflexivity|]. intros v Iv. apply V. eapply vd_input_field; eauto.
        - rewrite Ot. cbn [app]. apply flat_map_nil. intros v Iv. apply resolve_directives_nil. intros x J. apply R5. eapply du_enum_value; eauto.
        - rewrite Ot. rewrite (proj2 (resolve_fdefs_nil _)); [|intros f If; now apply (F (DUnion u))]. rewrite app_nil_r. cbn [app]. apply flat_map_nil. intros n In'.
          destruct (R4 u n It In') as (o & Io & E). now rewrite (proj2 (assoc_types n (DObject o))).
        - rewrite Ot, (Q (DInterface i)) by auto. rewrite (proj2 (resolve_fdefs_nil _)); [reflexivity|]. intros f If. now apply (F (DInterface i)). }
      rewrite E1. cbn [app]. apply flat_map_nil. intros x I. apply values_ddefs in I. apply resolve_ivds_nil. intros v Iv. apply V. eapply vd_directive_argument; eauto.
  Qed.
End References.

(** ** Roots *)
Section Roots.
  Variable d : defdoc.
  Notation T := (df_types d).
  Notation types := (fst (index td_name T)).
  Lemma object_lookup n o : assoc n types = Some (DObject o) -> ob_name o = n /\ object_named T n.
  Proof. intros E. apply index_In in E. destruct E as (I & E). cbn in E. split; [exact E|]. exists o. auto. Qed.
  Lemma optype_eqb_eq a b : optype_eqb a b = true -> a = b.
  Proof. destruct a, b; cbn; congruence. Qed.
  Lemma optype_eqb_refl a : optype_eqb a a = true.
  Proof. destruct a; reflexivity. Qed.
  Lemma declarations_In ty e p : In p (declarations ty e) <-> In p (es_roots e) /\ fst p = ty.
  Proof.
    unfold declarations. rewrite filter_In. split; intros (I & E); split; auto; [now apply optype_eqb_eq | rewrite E; apply optype_eqb_refl].
  Qed.
  Lemma explicit_root_ok ty e r : explicit_root types ty e = inl r -> declares e ty r /\ (forall n, r = Some n -> object_named T n).
  Proof.
    unfold explicit_root, declares. fold (declarations ty e). pose proof (fun p => declarations_In ty e p) as DI. destruct (declarations ty e) as [|[ty' n] [|q l]].
    - intros [= <-]. split; [reflexivity | congruence].
    - cbn [snd]. destruct (assoc n types) as [[]|] eqn:E; try discriminate. intros [= <-]. apply object_lookup in E. destruct E as (E & O). split.
      + destruct (DI (ty', n)) as (K & _). destruct (K (or_introl eq_refl)) as (_ & K'). cbn in K'. now rewrite K', E.
      + intros m [= <-]. now rewrite E.
    - discriminate.
  Qed.
  Lemma explicit_root_error ty e x : df_schemas d = [e] -> explicit_root types ty e = inr x -> derror_true d x.
  Proof.
    intros S. unfold explicit_root. fold (declarations ty e). pose proof (fun p => declarations_In ty e p) as DI. remember (declarations ty e) as l eqn:EL. destruct l as [|[ty' n] [|q l]].
    - discriminate.
    - cbn [snd]. destruct (proj1 (DI (ty', n)) (or_introl eq_refl)) as (I & _). destruct (assoc n types) as [t|] eqn:E.
      + apply index_In in E. destruct E as (J & E). intros H. assert (K : x = ExplicitRootNotObject n /\ forall o, t <> DObject o) by (destruct t; try discriminate; injection H as <-; split; auto; congruence).
        destruct K as (-> & K). cbn. exists e, ty', t. auto.
      + rewrite index_None in E. intros [= <-]. cbn. exists e. auto.
    - intros [= <-]. cbn. exists e. rewrite EL in *. rewrite <- EL. cbn. repeat split; auto. lia.
  Qed.
  Lemma implicit_root_ok n r : implicit_root types n = (r, []) -> conventional T n r /\ (forall m, r = Some m -> object_named T m).
  Proof.
    unfold implicit_root. destruct (assoc n types) as [t|] eqn:E.
    - destruct t; try discriminate. apply object_lookup in E. destruct E as (E & O). intros [= <-]. cbn. split; [exact E|]. intros m [= <-]. now rewrite E.
    - rewrite index_None in E. intros [= <-]. split; [exact E | congruence].
  Qed.
  Lemma implicit_root_error n r es x : df_schemas d = [] -> n = tx "Query" \/ n = tx "Mutation" \/ n = tx "Subscription" -> implicit_root types n = (r, es) -> In x es -> derror_true d x.
  Proof.
    intros S N. unfold implicit_root. destruct (assoc n types) as [t|] eqn:E.
    - apply index_In in E. destruct E as (J & E). intros H I. assert (K : x = ImplicitRootNotObject t /\ forall o, t <> DObject o).
      { destruct t; injection H as <- <-; cbn in I; try destruct I as [<-|[]]; try destruct I; split; auto; congruence. }
      destruct K as (-> & K). cbn. rewrite E. auto.
    - intros [= <- <-] [].
  Qed.
  Hypothesis ND : NoDup (map td_name T).
  Lemma explicit_root_complete ty e r : declares e ty r -> (forall n, r = Some n -> object_named T n) -> explicit_root types ty e = inl r.
  Proof.
    unfold declares, explicit_root. fold (declarations ty e). intros -> O. destruct r as [n|]; [|reflexivity]. cbn [snd]. destruct (O n eq_refl) as (o & I & E).
    rewrite (proj2 (assoc_types d ND n (DObject o))); [now rewrite E | auto].
  Qed.
  Lemma implicit_root_complete n r : conventional T n r -> (forall m, r = Some m -> object_named T m) -> implicit_root types n = (r, []).
  Proof.
    unfold implicit_root. intros C O. destruct r as [m|]; cbn in C.
    - subst m. destruct (O n eq_refl) as (o & I & E). rewrite (proj2 (assoc_types d ND n (DObject o))); [now rewrite E | auto].
    - now rewrite (proj2 (index_None _ _ _)).
  Qed.
End Roots.

(** ** The whole *)
Definition reference_errors (d : defdoc) : list derror :=
  map (fun p => DuplicateTypes (fst p) (snd p)) (snd (index td_name (df_types d))) ++
  map (fun p => DuplicateDirectives (fst p) (snd p)) (snd (index dd_name (df_ddefs d))) ++
  resolve_all (fst (index td_name (df_types d))) (fst (index dd_name (df_ddefs d))).
Definition build (d : defdoc) desc q m s dirs : schema :=
  {| s_desc := desc; s_types := map snd (fst (index td_name (df_types d))); s_ddefs := map snd (fst (index dd_name (df_ddefs d)));
     s_query := q; s_mutation := m; s_subscription := s; s_dirs := dirs |}.
Lemma resolve_eq d : resolve d =
  match reference_errors d with
  | [] =>
      match explicit_schema (fst (index td_name (df_types d))) (df_schemas d) with
      | inr es => inr es
      | inl (Some (e, q, m, s)) => inl (build d (es_desc e) q m s (es_dirs e))
      | inl None =>
          match implicit_schema (fst (index td_name (df_types d))) with
          | inr es => inr es
          | inl (Some (q, m, s)) => inl (build d None q m s [])
          | inl None => inr [NoSchema]
          end
      end
  | es => inr es
  end.
Proof. unfold resolve, reference_errors, build. destruct (index td_name (df_types d)) as [types dt], (index dd_name (df_ddefs d)) as [ddefs dd]. reflexivity. Qed.
Lemma reference_errors_nil d : reference_errors d = [] <-> NoDup (map td_name (df_types d)) /\ NoDup (map dd_name (df_ddefs d)) /\ references_ok (df_types d) (df_ddefs d).
Proof.
  unfold reference_errors. split.
  - intros H. apply app_eq_nil in H. destruct H as (H1 & H2). apply app_eq_nil in H2. destruct H2 as (H2 & H3). apply map_eq_nil in H1. apply map_eq_nil in H2.
    rewrite dups_nil in H1. rewrite dups_nil in H2. rewrite resolve_all_nil in H3; auto.
  - intros (N1 & N2 & R). apply (resolve_all_nil d N1 N2) in R. apply dups_nil in N1. apply dups_nil in N2. now rewrite N1, N2, R.
Qed.
Lemma reference_errors_true d : Forall (derror_true d) (reference_errors d).
Proof.
  apply Forall_forall. intros e. unfold reference_errors. rewrite !in_app_iff. intros [H|[H|H]].
  - apply in_map_iff in H. destruct H as ((k & l) & <- & I). cbn. now apply dups_In in I.
  - apply in_map_iff in H. destruct H as ((k & l) & <- & I). cbn. now apply dups_In in I.
  - now apply resolve_all_In.
Qed.
Lemma explicit_schema_cases d e : df_schemas d = [e] ->
  match explicit_schema (fst (index td_name (df_types d))) (df_schemas d) with
  | inr es => es <> [] /\ Forall (derror_true d) es
  | inl None => False
  | inl (Some (e', q, m, s)) => e' = e /\ declares e OQuery (Some q) /\ declares e OMutation m /\ declares e OSubscription s /\
      object_named (df_types d) q /\ (forall n, m = Some n -> object_named (df_types d) n) /\ (forall n, s = Some n -> object_named (df_types d) n)
  end.
Proof.
  intros S. rewrite S. cbn [explicit_schema].
  destruct (explicit_root _ OQuery e) as [q|x1] eqn:E1; destruct (explicit_root _ OMutation e) as [m|x2] eqn:E2; destruct (explicit_root _ OSubscription e) as [s|x3] eqn:E3; cbn [root_or app];
    repeat match goal with E : explicit_root _ _ _ = inr _ |- _ => apply (explicit_root_error _ _ _ _ S) in E end; try (split; [discriminate | repeat constructor; assumption]).
  apply explicit_root_ok in E1. apply explicit_root_ok in E2. apply explicit_root_ok in E3. destruct E1 as (D1 & O1). destruct E2, E3. destruct q as [q|].
  - auto 10.
  - split; [discriminate|]. constructor; [|constructor]. cbn. auto.
Qed.
Lemma conventional_none T n : conventional T n None -> unnamed T n.
Proof. auto. Qed.
Lemma implicit_schema_cases d : df_schemas d = [] ->
  match implicit_schema (fst (index td_name (df_types d))) with
  | inr es => es <> [] /\ Forall (derror_true d) es
  | inl None => derror_true d NoSchema
  | inl (Some (q, m, s)) => q = tx "Query" /\ conventional (df_types d) (tx "Mutation") m /\ conventional (df_types d) (tx "Subscription") s /\
      object_named (df_types d) q /\ (forall n, m = Some n -> object_named (df_types d) n) /\ (forall n, s = Some n -> object_named (df_types d) n)
  end.
Proof.
  intros S. unfold implicit_schema.
  destruct (implicit_root _ (tx "Query")) as [q e1] eqn:E1. destruct (implicit_root _ (tx "Mutation")) as [m e2] eqn:E2. destruct (implicit_root _ (tx "Subscription")) as [s e3] eqn:E3.
  assert (F : Forall (derror_true d) (e1 ++ e2 ++ e3)).
  { apply Forall_forall. intros x I. rewrite !in_app_iff in I. destruct I as [I|[I|I]];
      [eapply implicit_root_error; [exact S | |exact E1|exact I] | eapply implicit_root_error; [exact S | |exact E2|exact I] | eapply implicit_root_error; [exact S | |exact E3|exact I]]; auto. }
  destruct (e1 ++ e2 ++ e3) as [|x l] eqn:EE; [|split; [discriminate | exact F]].
  apply app_eq_nil in EE. destruct EE as (-> & EE). apply app_eq_nil in EE. destruct EE as (-> & ->).
  apply implicit_root_ok in E1. apply implicit_root_ok in E2. apply implicit_root_ok in E3. destruct E1 as (C1 & O1), E2 as (C2 & O2), E3 as (C3 & O3).
  destruct q as [q|]; [cbn in C1; auto 10|].
  destruct m as [m|]; [|destruct s as [s|]].
  - split; [discriminate|]. constructor; [|constructor]. cbn in *. subst m. repeat split; auto.
  - split; [discriminate|]. constructor; [|constructor]. cbn in *. subst s. repeat split; auto.
  - cbn in *. auto.
Qed.
Lemma resolve_errors d es : resolve d = inr es -> es <> [] /\ Forall (derror_true d) es.
Proof.
  rewrite resolve_eq. pose proof (reference_errors_true d) as F. destruct (reference_errors d) as [|x l]; [|intros [= <-]; split; [discriminate | exact F]]. clear F.
  destruct (df_schemas d) as [|e [|e' r]] eqn:S.
  - cbn [explicit_schema]. pose proof (implicit_schema_cases d S) as K. destruct (implicit_schema _) as [[[[q m] s]|]|es']; [discriminate | | now intros [= <-]].
    intros [= <-]. split; [discriminate|]. now constructor.
  - pose proof (explicit_schema_cases d e S) as K. rewrite S in K. destruct (explicit_schema _ _) as [[[[[e' q] m] s]|]|es']; [discriminate | destruct K | now intros [= <-]].
  - cbn [explicit_schema]. intros [= <-]. split; [discriminate|]. constructor; [|constructor]. cbn. rewrite S. cbn. split; [reflexivity | lia].
Qed.
Lemma resolve_schema d s : resolve d = inl s <-> schema_of d s.
Proof.
  split.
  - rewrite resolve_eq. destruct (reference_errors d) as [|x l] eqn:RE; [|discriminate]. apply reference_errors_nil in RE. destruct RE as (N1 & N2 & R).
    assert (B : forall desc q m s' dirs, s = build d desc q m s' dirs -> explicit_roots d s \/ implicit_roots d s -> roots_are_objects (df_types d) s -> schema_of d s).
    { intros desc q m s' dirs -> H1 H2. split; auto; cbn [build s_types s_ddefs]; try (now apply index_perm); apply index_sorted. }
    destruct (df_schemas d) as [|e [|e' r]] eqn:S.
    + cbn [explicit_schema]. pose proof (implicit_schema_cases d S) as K. destruct (implicit_schema _) as [[[[q m] s']|]|es']; [|discriminate|discriminate].
      destruct K as (-> & C2 & C3 & O1 & O2 & O3). intros [= <-]. eapply B; [reflexivity | right; repeat split; auto | split; auto].
    + pose proof (explicit_schema_cases d e S) as K. rewrite S in K. destruct (explicit_schema _ _) as [[[[[e' q] m] s']|]|es']; [|destruct K|discriminate].
      destruct K as (-> & C1 & C2 & C3 & O1 & O2 & O3). intros [= <-]. eapply B; [reflexivity | left; exists e; repeat split; auto | split; auto].
    + discriminate.
  - intros [P1 S1 P2 S2 R RO (O1 & O2 & O3)]. rewrite resolve_eq.
    assert (N1 : NoDup (map td_name (df_types d))) by (eapply Permutation_NoDup; [apply Permutation_map; symmetry; exact P1 | now apply Maps.sorted_NoDup]).
    assert (N2 : NoDup (map dd_name (df_ddefs d))) by (eapply Permutation_NoDup; [apply Permutation_map; symmetry; exact P2 | now apply Maps.sorted_NoDup]).
    rewrite (proj2 (reference_errors_nil d)) by auto.
    assert (B : forall desc q m s' dirs, s_desc s = desc -> s_query s = q -> s_mutation s = m -> s_subscription s = s' -> s_dirs s = dirs -> build d desc q m s' dirs = s).
    { intros desc q m s' dirs <- <- <- <- <-. destruct s as [sd st sdd sq sm ss sdir]. unfold build. cbn in *. f_equal; apply sorted_perm_eq with (key := td_name) || apply sorted_perm_eq with (key := dd_name); auto; try apply index_sorted; (etransitivity; [symmetry; now apply index_perm|auto]). }
    destruct RO as [(e & S & E1 & E2 & D1 & D2 & D3)|(S & E1 & E2 & Q & C2 & C3)].
    + rewrite S. cbn [explicit_schema]. rewrite (explicit_root_complete d N1 OQuery e (Some (s_query s))); [|exact D1 | intros n [= <-]; exact O1].
      rewrite (explicit_root_complete d N1 OMutation e _ D2 O2), (explicit_root_complete d N1 OSubscription e _ D3 O3). cbn [root_or app]. f_equal. apply B; auto.
    + rewrite S. cbn [explicit_schema]. unfold implicit_schema. rewrite (implicit_root_complete d N1 (tx "Query") (Some (s_query s))); [|exact Q | intros n [= <-]; exact O1].
      rewrite (implicit_root_complete d N1 _ _ C2 O2), (implicit_root_complete d N1 _ _ C3 O3). cbn [app]. f_equal. apply B; auto.
Qed.
