(** [BTreeMap<&str, A>]: entries sorted by key, later insertions replace earlier ones. *)
From Verif Require Import Base.
From Coq Require Import Sorted.

Section Maps.
  Context {A : Type}.
  Fixpoint tinsert (k : text) (a : A) (l : list (text * A)) : list (text * A) :=
    match l with
    | [] => [(k, a)]
    | (k', a') :: l' =>
        match tcmp k k' with
        | Lt => (k, a) :: l
        | Eq => (k, a) :: l'
        | Gt => (k', a') :: tinsert k a l'
        end
    end.
  (** [BTreeMap::from_iter] *)
  Definition tmap_of (l : list (text * A)) : list (text * A) :=
    fold_left (fun m kv => tinsert (fst kv) (snd kv) m) l [].

  Lemma tlt_trans a b c : tlt a b -> tlt b c -> tlt a c.
  Proof. apply tcmp_lt_trans. Qed.
  Lemma tinsert_In k a l k' a' : In (k', a') (tinsert k a l) -> (k' = k /\ a' = a) \/ In (k', a') l.
  Proof.
    induction l as [|[k0 a0] l IH]; cbn.
    - intros [[= -> ->]|[]]; auto.
    - destruct (tcmp k k0) eqn:E; cbn.
      + intros [[= -> ->]|H]; auto.
      + intros [[= -> ->]|H]; auto.
      + intros [[= -> ->]|H]; auto. destruct (IH H) as [?|?]; auto.
  Qed.
  Lemma tinsert_keys k a l x : In x (map fst (tinsert k a l)) <-> x = k \/ In x (map fst l).
  Proof.
    induction l as [|[k0 a0] l IH]; cbn; [intuition congruence|].
    destruct (tcmp k k0) eqn:E; cbn.
    - apply tcmp_eq in E. subst. intuition congruence.
    - intuition congruence.
    - rewrite IH. intuition congruence.
  Qed.
  Lemma tinsert_sorted k a l : StronglySorted tlt (map fst l) -> StronglySorted tlt (map fst (tinsert k a l)).
  Proof.
    induction l as [|[k0 a0] l IH]; cbn; intros Hs.
    - constructor; constructor.
    - inversion Hs as [|? ? Hs' Hall]; subst. destruct (tcmp k k0) eqn:E; cbn.
      + apply tcmp_eq in E. subst. auto.
      + constructor; auto. constructor; auto. eapply Forall_impl; [|exact Hall]. intros x Hx. eapply tlt_trans; eauto.
      + constructor; auto. apply Forall_forall. intros x Hx. apply tinsert_keys in Hx as [->|Hx].
        * unfold tlt. rewrite tcmp_sym, E. reflexivity.
        * rewrite Forall_forall in Hall. auto.
  Qed.
  Lemma tmap_of_sorted l : StronglySorted tlt (map fst (tmap_of l)).
  Proof.
    unfold tmap_of. assert (H : StronglySorted tlt (map fst (@nil (text * A)))) by constructor.
    revert H. generalize (@nil (text * A)). induction l as [|[k a] l IH]; cbn; intros m Hm; auto.
    apply IH. apply tinsert_sorted; auto.
  Qed.
  Lemma sorted_NoDup (l : list text) : StronglySorted tlt l -> NoDup l.
  Proof.
    induction 1 as [|x l Hs IH Hall]; constructor; auto. intros Hin. rewrite Forall_forall in Hall.
    apply (tlt_irrefl x); auto.
  Qed.
  Lemma tmap_of_NoDup l : NoDup (map fst (tmap_of l)).
  Proof. apply sorted_NoDup, tmap_of_sorted. Qed.

  Lemma tinsert_assoc k a l x : StronglySorted tlt (map fst l) ->
    assoc x (tinsert k a l) = if teqb x k then Some a else assoc x l.
  Proof.
    induction l as [|[k0 a0] l IH]; cbn; intros Hs; auto.
    inversion Hs as [|? ? Hs' Hall]; subst. destruct (tcmp k k0) eqn:E; cbn.
    - apply tcmp_eq in E. subst. destruct (teqb x k0); auto.
    - reflexivity.
    - rewrite IH by auto. destruct (teqb_spec x k0) as [->|Hn]; auto.
      destruct (teqb_spec k0 k) as [->|Hn]; auto. rewrite tcmp_refl in E. discriminate.
  Qed.
  Lemma tmap_of_assoc l k : assoc k (tmap_of l) = assoc_last k l.
  Proof.
    unfold tmap_of.
    enough (H : forall m, StronglySorted tlt (map fst m) ->
       assoc k (fold_left (fun m kv => tinsert (fst kv) (snd kv) m) l m) =
       match assoc_last k l with Some a => Some a | None => assoc k m end).
    { rewrite H by constructor. cbn. destruct (assoc_last k l); auto. }
    induction l as [|[k' a'] l IH]; cbn; intros m Hm; auto.
    rewrite IH by (apply tinsert_sorted; auto). destruct (assoc_last k l); auto.
    rewrite tinsert_assoc by auto. destruct (teqb k k'); auto.
  Qed.
  Lemma tmap_of_In l k a : In (k, a) (tmap_of l) <-> assoc_last k l = Some a.
  Proof.
    rewrite <- tmap_of_assoc. split; [|apply assoc_In]. apply assoc_NoDup, tmap_of_NoDup.
  Qed.
  Lemma tmap_of_length l : length (tmap_of l) <= length l.
  Proof.
    unfold tmap_of. enough (H : forall m, length (fold_left (fun m kv => tinsert (fst kv) (snd kv) m) l m) <= length m + length l) by (apply (H [])).
    assert (Hi : forall k a m, length (tinsert k a m) <= S (length m)).
    { intros k a m. induction m as [|[k0 a0] m IH]; cbn; auto. destruct (tcmp k k0); cbn; lia. }
    induction l as [|[k a] l IH]; cbn; intros m; [lia|]. specialize (IH (tinsert k a m)). specialize (Hi k a m). lia.
  Qed.

  (** the last entry with key [k], in words *)
  Lemma assoc_last_split k (l : list (text * A)) a :
    assoc_last k l = Some a <-> exists before after, l = before ++ (k, a) :: after /\ ~ In k (map fst after).
  Proof.
    split.
    - induction l as [|[k' a'] l IH]; cbn; [discriminate|].
      destruct (assoc_last k l) as [b|] eqn:E.
      + intros [= ->]. destruct (IH eq_refl) as (bf & af & -> & Hn). exists ((k', a') :: bf), af. auto.
      + destruct (teqb_spec k k') as [<-|Hn]; [|discriminate]. intros [= ->].
        exists [], l. split; auto. apply assoc_last_None; auto.
    - intros (bf & af & -> & Hn). induction bf as [|[k' a'] bf IH]; cbn.
      + apply assoc_last_None in Hn. rewrite Hn, teqb_refl. reflexivity.
      + rewrite IH. reflexivity.
  Qed.
End Maps.
