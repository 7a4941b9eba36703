(** Reachability and depth-first search with a visited set, over names or indices. *)
From Verif Require Import Base.

(** one or more steps *)
Inductive plus {A} (R : A -> A -> Prop) : A -> A -> Prop :=
| plus_one a b : R a b -> plus R a b
| plus_step a b c : R a b -> plus R b c -> plus R a c.
(** zero or more steps *)
Inductive star {A} (R : A -> A -> Prop) : A -> A -> Prop :=
| star_refl a : star R a a
| star_step a b c : R a b -> star R b c -> star R a c.

Global Hint Constructors plus star : graph.

Lemma star_trans {A} (R : A -> A -> Prop) a b c : star R a b -> star R b c -> star R a c.
Proof. induction 1; intros; eauto with graph. Qed.
Lemma star_one {A} (R : A -> A -> Prop) a b : R a b -> star R a b.
Proof. intros. eapply star_step; eauto. constructor. Qed.
Lemma plus_star {A} (R : A -> A -> Prop) a b : plus R a b -> star R a b.
Proof. induction 1; eauto using star_one with graph. Qed.
Lemma plus_snoc {A} (R : A -> A -> Prop) a b c : plus R a b -> R b c -> plus R a c.
Proof. induction 1; intros; eauto with graph. Qed.
Lemma star_snoc_plus {A} (R : A -> A -> Prop) a b c : star R a b -> R b c -> plus R a c.
Proof. induction 1; intros; eauto with graph. Qed.
Lemma plus_inv_star {A} (R : A -> A -> Prop) a c : plus R a c <-> exists b, R a b /\ star R b c.
Proof.
  split.
  - induction 1 as [a b H|a b c H H1 (b' & H2 & H3)].
    + exists b; split; auto; constructor.
    + exists b; split; auto. eapply star_step; eauto.
  - intros (b & H1 & H2). revert a H1. induction H2; intros; eauto with graph.
Qed.
Lemma plus_last {A} (R : A -> A -> Prop) a c : plus R a c <-> exists b, star R a b /\ R b c.
Proof.
  split.
  - induction 1 as [a b H|a b c H H1 (b' & H2 & H3)].
    + exists a; split; auto; constructor.
    + exists b'; split; auto. eapply star_step; eauto.
  - intros (b & H1 & H2). eapply star_snoc_plus; eauto.
Qed.
Lemma star_impl {A} (R Q : A -> A -> Prop) a b : (forall x y, R x y -> Q x y) -> star R a b -> star Q a b.
Proof. intros H. induction 1; eauto with graph. Qed.
Lemma plus_impl {A} (R Q : A -> A -> Prop) a b : (forall x y, R x y -> Q x y) -> plus R a b -> plus Q a b.
Proof. intros H. induction 1; eauto with graph. Qed.

Section Dfs.
  Context {A : Type} (dec : forall a b : A, {a = b} + {a <> b}).
  Definition mem (a : A) (l : list A) : bool := if in_dec dec a l then true else false.
  Lemma mem_In a l : mem a l = true <-> In a l.
  Proof. unfold mem. destruct (in_dec dec a l); split; auto; discriminate. Qed.
  Lemma mem_false a l : mem a l = false <-> ~ In a l.
  Proof. unfold mem. destruct (in_dec dec a l); split; auto; try discriminate; tauto. Qed.

  (** number of elements of [U] outside [l] *)
  Definition unvisited (U l : list A) : nat := length (filter (fun x => negb (mem x l)) U).
  Lemma unvisited_mono U l l' : incl l l' -> unvisited U l' <= unvisited U l.
  Proof.
    intros H. unfold unvisited. induction U as [|x U IH]; cbn; auto.
    destruct (mem x l) eqn:E1; destruct (mem x l') eqn:E2; cbn; try lia.
    apply mem_In in E1. apply mem_false in E2. exfalso; auto.
  Qed.
  Lemma unvisited_cons U l x : In x U -> ~ In x l -> unvisited U (x :: l) < unvisited U l.
  Proof.
    intros Hx Hl. unfold unvisited.
    assert (Hle : forall V, length (filter (fun y => negb (mem y (x :: l))) V) <= length (filter (fun y => negb (mem y l)) V)).
    { intros V. apply (unvisited_mono V l (x :: l)). intros y Hy; right; auto. }
    induction U as [|y U IH]; [destruct Hx|]. cbn.
    destruct Hx as [->|Hx].
    - replace (mem x (x :: l)) with true by (symmetry; apply mem_In; left; auto).
      replace (mem x l) with false by (symmetry; apply mem_false; auto). cbn.
      specialize (Hle U). lia.
    - specialize (IH Hx). destruct (mem y l) eqn:E1.
      + replace (mem y (x :: l)) with true; [cbn; lia|].
        symmetry. apply mem_In. right. apply mem_In; auto.
      + destruct (mem y (x :: l)); cbn; lia.
  Qed.
  Lemma unvisited_le U l : unvisited U l <= length U.
  Proof. unfold unvisited. induction U as [|x U IH]; cbn; auto. destruct (negb (mem x l)); cbn; lia. Qed.

  (** The shape shared by the traversals of the validator: visit the successors in order, recurse into those
      that were not yet in the visited set. [None] = out of fuel. *)
  Variable succ : A -> list A.
  Fixpoint dfs (fuel : nat) (n : A) (visited : list A) {struct fuel} : option (list A) :=
    match fuel with
    | 0 => None
    | S fuel' =>
        fold_left (fun acc m => match acc with
                                | None => None
                                | Some vis => if mem m vis then Some vis else dfs fuel' m (m :: vis)
                                end) (succ n) (Some visited)
    end.
  Definition edge (a b : A) : Prop := In b (succ a).

  Section Universe.
    Variable U : list A.
    Hypothesis HU : forall a b, edge a b -> In b U.

    Lemma dfs_spec fuel : forall n visited, unvisited U visited < fuel ->
      exists r, dfs fuel n visited = Some r /\ incl visited r /\
        (forall x, In x r -> In x visited \/ plus edge n x) /\
        (forall m, In m (succ n) -> In m r) /\
        (forall x m, In x r -> ~ In x visited -> In m (succ x) -> In m r).
    Proof.
      induction fuel as [|fuel IH]; intros n visited Hf; [lia|].
      cbn [dfs].
      assert (Hgen : forall l vis, incl visited vis -> (forall m, In m l -> edge n m) ->
        (forall x, In x vis -> In x visited \/ plus edge n x) ->
        (forall x m, In x vis -> ~ In x visited -> In m (succ x) -> In m vis) ->
        exists r, fold_left (fun acc m => match acc with
                                | None => None
                                | Some vis => if mem m vis then Some vis else dfs fuel m (m :: vis)
                                end) l (Some vis) = Some r /\ incl vis r /\
          (forall x, In x r -> In x visited \/ plus edge n x) /\
          (forall m, In m l -> In m r) /\
          (forall x m, In x r -> ~ In x visited -> In m (succ x) -> In m r)).
      { induction l as [|m l IHl]; intros vis Hinc Hedge Hsound Hclosed; cbn [fold_left].
        - exists vis. repeat split; auto. + apply incl_refl. + intros m [].
        - destruct (mem m vis) eqn:Em.
          + apply mem_In in Em. destruct (IHl vis) as (r & Hr & H1 & H2 & H3 & H4); auto.
            { intros m' Hm'. apply Hedge. right; auto. }
            exists r. repeat split; auto. intros m' [<-|Hm']; auto.
          + apply mem_false in Em.
            assert (HmU : In m U) by (apply (HU n); apply Hedge; left; auto).
            destruct (IH m (m :: vis)) as (vis' & Hd & Hi & Hs & Hsucc & Hc).
            { pose proof (unvisited_cons U vis m HmU Em). pose proof (unvisited_mono U visited vis Hinc). lia. }
            rewrite Hd. destruct (IHl vis') as (r & Hr & H1 & H2 & H3 & H4).
            * intros x Hx. apply Hi. right. auto.
            * intros m' Hm'. apply Hedge. right; auto.
            * intros x Hx. destruct (Hs x Hx) as [[<-|Hv]|Hp].
              -- right. constructor. apply Hedge. left; auto.
              -- auto.
              -- right. eapply plus_step; eauto. apply Hedge. left; auto.
            * intros x y Hx Hnx Hy.
              destruct (in_dec dec x (m :: vis)) as [Hin|Hnin]; [|eapply Hc; eauto].
              destruct Hin as [<-|Hin]; [auto|]. apply Hi. right. eapply Hclosed; eauto.
            * exists r. repeat split; auto.
              -- intros x Hx. apply H1. apply Hi. right; auto.
              -- intros m' [<-|Hm']; auto. apply H1. apply Hi. left; auto. }
      destruct (Hgen (succ n) visited) as (r & Hr & H1 & H2 & H3 & H4); auto.
      - apply incl_refl.
      - intros x m H Hn. contradiction.
      - exists r. repeat split; auto.
    Qed.

    (** From an empty visited set, the search finds exactly the nodes reachable in one or more steps. *)
    Lemma dfs_reach fuel n : length U < fuel ->
      exists r, dfs fuel n [] = Some r /\ forall x, In x r <-> plus edge n x.
    Proof.
      intros Hf. destruct (dfs_spec fuel n []) as (r & Hr & _ & Hs & Hsucc & Hc).
      { pose proof (unvisited_le U []). lia. }
      exists r. split; auto. intros x. split.
      - intros Hx. destruct (Hs x Hx) as [[]|H]; auto.
      - intros Hp. apply plus_inv_star in Hp as (b & Hb & Hp). specialize (Hsucc b Hb).
        clear Hb. induction Hp as [a|a b c Hab Hbc IH]; auto. apply IH.
        eapply Hc; [exact Hsucc|auto|exact Hab].
    Qed.
  End Universe.
End Dfs.
