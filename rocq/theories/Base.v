(** Common vocabulary: texts, names, grouping by key.
    Rust [&str] is modelled as the list of its Unicode scalar values. *)
From Coq Require Export String Ascii.
From Coq Require Export List Arith NArith ZArith Lia Bool.
From Coq Require Import Sorted.
Export ListNotations.
Open Scope list_scope.

(** A Rust string slice: its Unicode scalar values, in order. *)
Definition text := list N.
Notation name := text (only parsing).

(** String notation used in examples only. *)
Fixpoint tx (s : string) : text :=
  match s with
  | EmptyString => []
  | String a s' => N_of_ascii a :: tx s'
  end.

Fixpoint teqb (a b : text) : bool :=
  match a, b with
  | [], [] => true
  | x :: a', y :: b' => N.eqb x y && teqb a' b'
  | _, _ => false
  end.

Lemma teqb_eq a b : teqb a b = true <-> a = b.
Proof.
  revert b; induction a as [|x a IH]; destruct b as [|y b]; cbn; try (split; congruence).
  rewrite andb_true_iff, N.eqb_eq, IH. split; [intros [-> ->]; reflexivity | intros [= -> ->]; auto].
Qed.
Lemma teqb_refl a : teqb a a = true.
Proof. apply teqb_eq; reflexivity. Qed.
Lemma teqb_neq a b : teqb a b = false <-> a <> b.
Proof. rewrite <- teqb_eq. destruct (teqb a b); split; congruence. Qed.
Lemma teqb_spec a b : reflect (a = b) (teqb a b).
Proof. apply iff_reflect. symmetry. apply teqb_eq. Qed.
Lemma teqb_sym a b : teqb a b = teqb b a.
Proof.
  destruct (teqb a b) eqn:E1; destruct (teqb b a) eqn:E2; auto.
  - apply teqb_eq in E1. apply teqb_neq in E2. congruence.
  - apply teqb_neq in E1. apply teqb_eq in E2. congruence.
Qed.
Definition text_dec (a b : text) : {a = b} + {a <> b} := list_eq_dec N.eq_dec a b.

(** [str] ordering: lexicographic (UTF-8 byte order coincides with scalar value order). *)
Fixpoint tcmp (a b : text) : comparison :=
  match a, b with
  | [], [] => Eq
  | [], _ :: _ => Lt
  | _ :: _, [] => Gt
  | x :: a', y :: b' => match N.compare x y with Eq => tcmp a' b' | c => c end
  end.

Lemma tcmp_eq a b : tcmp a b = Eq <-> a = b.
Proof.
  revert b; induction a as [|x a IH]; destruct b as [|y b]; cbn; try (split; congruence).
  destruct (N.compare_spec x y) as [E|E|E].
  - subst. rewrite IH. split; congruence.
  - split; [congruence|intros [= -> ->]; lia].
  - split; [congruence|intros [= -> ->]; lia].
Qed.
Lemma tcmp_refl a : tcmp a a = Eq. Proof. apply tcmp_eq; reflexivity. Qed.
Lemma tcmp_sym a b : tcmp b a = CompOpp (tcmp a b).
Proof.
  revert b; induction a as [|x a IH]; destruct b as [|y b]; cbn; auto.
  rewrite (N.compare_antisym x y). destruct (N.compare x y); cbn; auto.
Qed.
Lemma tcmp_lt_trans a b c : tcmp a b = Lt -> tcmp b c = Lt -> tcmp a c = Lt.
Proof.
  revert b c; induction a as [|x a IH]; destruct b as [|y b]; destruct c as [|z c]; cbn; try congruence.
  destruct (N.compare_spec x y) as [E|E|E]; destruct (N.compare_spec y z) as [F|F|F]; try congruence; subst.
  - rewrite N.compare_refl. eauto.
  - intros _ _. rewrite (proj2 (N.compare_lt_iff _ _) F); auto.
  - intros _ _. rewrite (proj2 (N.compare_lt_iff _ _) E); auto.
  - intros _ _. assert (H : (x < z)%N) by lia. rewrite (proj2 (N.compare_lt_iff _ _) H); auto.
Qed.
Definition tlt (a b : text) : Prop := tcmp a b = Lt.
Lemma tlt_irrefl a : ~ tlt a a.
Proof. unfold tlt. rewrite tcmp_refl. discriminate. Qed.

Definition tmem (x : text) (l : list text) : bool := existsb (teqb x) l.
Lemma tmem_In x l : tmem x l = true <-> In x l.
Proof.
  unfold tmem. rewrite existsb_exists. split.
  - intros (y & Hy & E). apply teqb_eq in E. subst; auto.
  - intros H. exists x. split; auto. apply teqb_refl.
Qed.
Lemma tmem_false x l : tmem x l = false <-> ~ In x l.
Proof. rewrite <- tmem_In. destruct (tmem x l); split; congruence. Qed.

(** First entry with the given key. *)
Fixpoint assoc {A} (k : text) (l : list (text * A)) : option A :=
  match l with
  | [] => None
  | (k', a) :: l' => if teqb k k' then Some a else assoc k l'
  end.
(** Last entry with the given key: the content of a map built by successive insertions. *)
Fixpoint assoc_last {A} (k : text) (l : list (text * A)) : option A :=
  match l with
  | [] => None
  | (k', a) :: l' =>
      match assoc_last k l' with
      | Some b => Some b
      | None => if teqb k k' then Some a else None
      end
  end.

Lemma assoc_In {A} k (l : list (text * A)) a : assoc k l = Some a -> In (k, a) l.
Proof.
  induction l as [|[k' a'] l IH]; cbn; [discriminate|].
  destruct (teqb_spec k k') as [<-|H]; [intros [= ->]; auto | auto].
Qed.
Lemma assoc_None {A} k (l : list (text * A)) : assoc k l = None <-> ~ In k (map fst l).
Proof.
  induction l as [|[k' a'] l IH]; cbn; [tauto|].
  destruct (teqb_spec k k') as [<-|H]; [split; [discriminate|tauto]|].
  rewrite IH. split; intros H1; [intros [E|E]; [congruence|tauto]|tauto].
Qed.
Lemma assoc_NoDup {A} k (l : list (text * A)) a :
  NoDup (map fst l) -> In (k, a) l -> assoc k l = Some a.
Proof.
  induction l as [|[k' a'] l IH]; cbn; [tauto|].
  intros Hnd [E|Hin]; inversion Hnd as [|? ? Hni Hnd']; subst.
  - injection E as -> ->. rewrite teqb_refl. auto.
  - destruct (teqb_spec k k') as [<-|H]; [|auto].
    exfalso. apply Hni. apply (in_map fst) in Hin. exact Hin.
Qed.
Lemma assoc_last_In {A} k (l : list (text * A)) a : assoc_last k l = Some a -> In (k, a) l.
Proof.
  induction l as [|[k' a'] l IH]; cbn; [discriminate|].
  destruct (assoc_last k l) as [b|] eqn:E.
  - intros [= ->]. right; auto.
  - destruct (teqb_spec k k') as [<-|H]; [intros [= ->]; auto | discriminate].
Qed.
Lemma assoc_last_None {A} k (l : list (text * A)) : assoc_last k l = None <-> ~ In k (map fst l).
Proof.
  induction l as [|[k' a'] l IH]; cbn; [tauto|].
  destruct (assoc_last k l) as [b|] eqn:E.
  - split; [discriminate|]. intros H. exfalso. apply H. right.
    apply assoc_last_In in E. apply (in_map fst) in E. exact E.
  - destruct (teqb_spec k k') as [<-|H]; [split; [discriminate|tauto]|].
    assert (H0 : ~ In k (map fst l)) by (apply IH; reflexivity).
    split; auto. intros _ [E'|E']; congruence || tauto.
Qed.
Lemma assoc_last_NoDup {A} k (l : list (text * A)) :
  NoDup (map fst l) -> assoc_last k l = assoc k l.
Proof.
  induction l as [|[k' a'] l IH]; cbn; auto.
  intros Hnd; inversion Hnd as [|? ? Hni Hnd']; subst. rewrite IH by auto.
  destruct (teqb_spec k k') as [<-|H].
  - destruct (assoc k l) eqn:E; auto. apply assoc_In in E. apply (in_map fst) in E. contradiction.
  - destruct (assoc k l); auto.
Qed.

(** bluejay-validator/src/utils.rs:5-18 [duplicates]: group by key in a [BTreeMap]
    (sorted by key), each group in encounter order, then keep the groups with more than one element. *)
Section Duplicates.
  Context {A : Type} (key : A -> text).
  Fixpoint ginsert (x : A) (m : list (text * list A)) : list (text * list A) :=
    match m with
    | [] => [(key x, [x])]
    | (k, xs) :: m' =>
        match tcmp (key x) k with
        | Eq => (k, xs ++ [x]) :: m'
        | Lt => (key x, [x]) :: m
        | Gt => (k, xs) :: ginsert x m'
        end
    end.
  Definition group (l : list A) : list (text * list A) := fold_left (fun m x => ginsert x m) l [].
  Definition duplicates (l : list A) : list (text * list A) :=
    filter (fun g => Nat.ltb 1 (length (snd g))) (group l).

  (** the sub-list of elements with a given key *)
  Definition with_key (k : text) (l : list A) : list A := filter (fun x => teqb (key x) k) l.

  Definition keys_sorted (m : list (text * list A)) : Prop := StronglySorted tlt (map fst m).

  Lemma ginsert_keys x m k : In k (map fst (ginsert x m)) <-> k = key x \/ In k (map fst m).
  Proof.
    induction m as [|[k' xs] m IH]; cbn.
    - intuition.
    - destruct (tcmp (key x) k') eqn:E; cbn.
      + apply tcmp_eq in E. subst. intuition.
      + intuition.
      + rewrite IH. intuition.
  Qed.

  Lemma ginsert_sorted x m : keys_sorted m -> keys_sorted (ginsert x m).
  Proof.
    unfold keys_sorted. induction m as [|[k xs] m IH]; cbn.
    - intros _. repeat constructor.
    - intros H. inversion H as [|? ? Hs Hf]; subst.
      destruct (tcmp (key x) k) eqn:E; cbn.
      + exact H.
      + constructor; [exact H|]. constructor; [exact E|].
        eapply Forall_impl; [|exact Hf]. intros a Ha. eapply tcmp_lt_trans; eauto.
      + constructor; [apply IH; auto|].
        apply Forall_forall. intros k0 Hk0. apply ginsert_keys in Hk0 as [->|Hk0].
        * unfold tlt. rewrite tcmp_sym, E. reflexivity.
        * rewrite Forall_forall in Hf. auto.
  Qed.

  Lemma ginsert_assoc x m k : keys_sorted m ->
    assoc k (ginsert x m) =
      if teqb k (key x) then Some (match assoc k m with Some xs => xs ++ [x] | None => [x] end)
      else assoc k m.
  Proof.
    unfold keys_sorted. induction m as [|[k' xs] m IH]; cbn; intros H.
    - destruct (teqb k (key x)); reflexivity.
    - inversion H as [|? ? Hs Hf]; subst.
      destruct (tcmp (key x) k') eqn:E; cbn.
      + apply tcmp_eq in E. subst. destruct (teqb k (key x)); reflexivity.
      + destruct (teqb_spec k (key x)) as [Ek|Hne]; [|reflexivity].
        destruct (teqb_spec k k') as [Ek'|Hne']; [rewrite <- Ek, <- Ek', tcmp_refl in E; discriminate|].
        destruct (assoc k m) eqn:Em; auto.
        apply assoc_In in Em. apply (in_map fst) in Em. cbn in Em.
        rewrite Forall_forall in Hf. specialize (Hf _ Em). unfold tlt in Hf.
        rewrite tcmp_sym, Ek, E in Hf. discriminate.
      + rewrite IH by auto. destruct (teqb_spec k k') as [Ek|Hne]; [|reflexivity].
        destruct (teqb_spec k (key x)) as [Ek'|Hne']; [rewrite <- Ek, <- Ek', tcmp_refl in E; discriminate|].
        reflexivity.
  Qed.

  Lemma group_from l : forall m, keys_sorted m ->
    keys_sorted (fold_left (fun m x => ginsert x m) l m) /\
    forall k, assoc k (fold_left (fun m x => ginsert x m) l m) =
      match assoc k m, with_key k l with
      | Some xs, ys => Some (xs ++ ys)
      | None, [] => None
      | None, ys => Some ys
      end.
  Proof.
    induction l as [|x l IH]; cbn [fold_left]; intros m Hm.
    - split; auto. intros k. cbn. destruct (assoc k m); auto. rewrite app_nil_r; auto.
    - destruct (IH (ginsert x m) (ginsert_sorted x m Hm)) as [Hs Ha]. split; auto.
      intros k. rewrite Ha, ginsert_assoc by auto. cbn [with_key filter].
      rewrite (teqb_sym (key x) k). fold (with_key k l).
      destruct (teqb k (key x)); [|reflexivity].
      destruct (assoc k m); cbn; [rewrite <- app_assoc; reflexivity|reflexivity].
  Qed.

  Lemma group_sorted l : keys_sorted (group l).
  Proof. apply group_from. constructor. Qed.

  Lemma sorted_NoDup m : keys_sorted m -> NoDup (map fst m).
  Proof.
    unfold keys_sorted. induction (map fst m) as [|k ks IH]; intros H; constructor;
      inversion H as [|? ? Hs Hf]; subst; auto.
    intros Hin. rewrite Forall_forall in Hf. apply (tlt_irrefl k). auto.
  Qed.

  Lemma group_In l k xs : In (k, xs) (group l) <-> xs = with_key k l /\ xs <> [].
  Proof.
    pose proof (group_sorted l) as Hs.
    destruct (group_from l [] (SSorted_nil _)) as [_ Ha]. fold (group l) in Ha.
    split.
    - intros Hin. apply assoc_NoDup in Hin; [|apply sorted_NoDup; auto].
      rewrite Ha in Hin. cbn in Hin. destruct (with_key k l); [discriminate|].
      injection Hin as <-. split; congruence.
    - intros [-> Hne]. apply assoc_In. rewrite Ha. cbn. destruct (with_key k l); congruence.
  Qed.

  (** The result of [duplicates]: exactly the keys that occur at least twice, with all the elements
      that have the key, in order. *)
  Lemma duplicates_In l k xs :
    In (k, xs) (duplicates l) <-> xs = with_key k l /\ 2 <= length xs.
  Proof.
    unfold duplicates. rewrite filter_In, group_In. cbn [snd]. rewrite Nat.ltb_lt.
    split; [intros [[-> H] H1]; split; auto|intros [-> H]; repeat split; auto].
    intros E. rewrite E in H. cbn in H. lia.
  Qed.
  Lemma NoDup_with_key l k : NoDup (map key l) -> length (with_key k l) <= 1.
  Proof.
    induction l as [|x l IH]; cbn; intros H; [lia|].
    inversion H as [|? ? Hni Hnd]; subst. fold (with_key k l).
    destruct (teqb_spec (key x) k) as [<-|Hne]; [|auto].
    cbn. enough (with_key (key x) l = []) as -> by (cbn; lia).
    destruct (with_key (key x) l) as [|y ys] eqn:E; auto. exfalso. apply Hni.
    assert (Hy : In y (with_key (key x) l)) by (rewrite E; left; auto).
    unfold with_key in Hy. apply filter_In in Hy as [Hy Hk]. apply teqb_eq in Hk. rewrite <- Hk.
    apply in_map; auto.
  Qed.
  Lemma duplicates_nil l : duplicates l = [] <-> NoDup (map key l).
  Proof.
    split.
    - intros H.
      assert (Hk : forall k, length (with_key k l) <= 1).
      { intros k. destruct (le_lt_dec (length (with_key k l)) 1) as [|Hgt]; auto.
        assert (Hin : In (k, with_key k l) (duplicates l)) by (apply duplicates_In; split; auto; lia).
        rewrite H in Hin. destruct Hin. }
      clear H. induction l as [|x l IH]; cbn; constructor.
      + intros Hin. apply in_map_iff in Hin as (y & Hy & Hin).
        specialize (Hk (key x)). cbn in Hk. rewrite teqb_refl in Hk. cbn in Hk.
        assert (Hy' : In y (with_key (key x) l)).
        { unfold with_key. apply filter_In. split; auto. rewrite Hy. apply teqb_refl. }
        unfold with_key in Hy'. destruct (filter (fun x0 => teqb (key x0) (key x)) l); [destruct Hy'|cbn in Hk; lia].
      + apply IH. intros k. specialize (Hk k). cbn in Hk. fold (with_key k l) in Hk.
        destruct (teqb (key x) k); cbn in Hk; fold (with_key k l) in Hk; lia.
    - intros Hnd. destruct (duplicates l) as [|[k xs] d] eqn:E; auto.
      assert (Hin : In (k, xs) (duplicates l)) by (rewrite E; left; auto).
      apply duplicates_In in Hin as [-> Hlen]. pose proof (NoDup_with_key l k Hnd). lia.
  Qed.
End Duplicates.

(** [Iterator::enumerate] + [map]. *)
Definition mapi_from {A B} (f : nat -> A -> B) : nat -> list A -> list B :=
  fix go (i : nat) (l : list A) : list B :=
    match l with
    | [] => []
    | x :: l' => f i x :: go (S i) l'
    end.
Definition mapi {A B} (f : nat -> A -> B) := mapi_from f 0.

Lemma mapi_from_In {A B} (f : nat -> A -> B) l : forall i y,
  In y (mapi_from f i l) <-> exists j x, nth_error l j = Some x /\ y = f (i + j) x.
Proof.
  induction l as [|x l IH]; intros i y; cbn.
  - split; [tauto|]. intros (j & x & H & _). destruct j; discriminate.
  - rewrite IH. split.
    + intros [<-|(j & x' & H & ->)].
      * exists 0, x. rewrite Nat.add_0_r. auto.
      * exists (S j), x'. split; auto. f_equal; lia.
    + intros (j & x' & H & ->). destruct j as [|j]; cbn in H.
      * injection H as ->. left. rewrite Nat.add_0_r. auto.
      * right. exists j, x'. split; auto. f_equal; lia.
Qed.

Lemma existsb_false {A} (f : A -> bool) l : existsb f l = false <-> forall x, In x l -> f x = false.
Proof.
  split.
  - intros H x Hx. destruct (f x) eqn:E; auto.
    rewrite <- H. symmetry. apply existsb_exists. eauto.
  - intros H. destruct (existsb f l) eqn:E; auto.
    apply existsb_exists in E as (x & Hx & Hf). rewrite H in Hf; auto.
Qed.
Lemma filter_nil {A} (f : A -> bool) l : filter f l = [] <-> forall x, In x l -> f x = false.
Proof.
  induction l as [|x l IH]; cbn; [intuition|].
  destruct (f x) eqn:E; split.
  - discriminate.
  - intros H. rewrite H in E; auto. discriminate.
  - intros H y [<-|Hy]; auto. apply IH; auto.
  - intros H. apply IH. auto.
Qed.
Lemma flat_map_nil {A B} (f : A -> list B) l : flat_map f l = [] <-> forall x, In x l -> f x = [].
Proof.
  induction l as [|x l IH]; cbn; [intuition|].
  split.
  - intros H. apply app_eq_nil in H as [H1 H2]. intros y [<-|Hy]; auto. apply IH; auto.
  - intros H. rewrite H by auto. cbn. apply IH. auto.
Qed.
