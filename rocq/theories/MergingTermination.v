(** The merging rule terminates on every document: [merging_errors] always has a result. *)
From Verif Require Import Base Ast Maps Doc ValueEq Merging.

(** * The state *)
Lemma lookup_insert id es st : lookup id (ms_cache (insert id es st)) = Some es.
Proof. cbn. destruct (set_id_dec id id); congruence. Qed.
Lemma lookup_filter id id' l : id' <> id -> lookup id' (filter (fun e => if set_id_dec id (fst e) then false else true) l) = lookup id' l.
Proof.
  intros Hn. induction l as [|[i es] l IH]; auto. cbn. destruct (set_id_dec id i) as [->|H].
  - cbn. destruct (set_id_dec id' i); [congruence|auto].
  - cbn. rewrite IH. reflexivity.
Qed.
Lemma lookup_insert_other id id' es st : id' <> id -> lookup id' (ms_cache (insert id es st)) = lookup id' (ms_cache st).
Proof. intros Hn. cbn. destruct (set_id_dec id' id); [congruence|]. apply lookup_filter; auto. Qed.

(** * Groups *)
Lemma distinct_In l : forall k, In k (distinct l) <-> In k l.
Proof.
  induction l as [|x l IH]; intros k; cbn; [tauto|]. rewrite filter_In, IH. destruct (teqb_spec x k) as [->|H]; cbn; split; intuition congruence.
Qed.
Lemma groups_by_In key l g : In g (groups_by key l) -> exists k, In k (map key l) /\ forall x, In x g <-> In x l /\ key x = k.
Proof.
  unfold groups_by. intros H. apply in_map_iff in H as (k & <- & Hk). apply (proj1 (distinct_In _ _)) in Hk. exists k. split; auto.
  intros x. rewrite filter_In, teqb_eq. tauto.
Qed.
Lemma groups_by_has key l x : In x l -> exists g, In g (groups_by key l) /\ forall y, In y g <-> In y l /\ key y = key x.
Proof.
  intros H. exists (filter (fun y => teqb (key y) (key x)) l). split.
  - unfold groups_by. apply in_map_iff. exists (key x). split; auto. apply distinct_In, in_map; auto.
  - intros y. rewrite filter_In, teqb_eq. tauto.
Qed.
Lemma parent_groups_incl g pg x : In pg (parent_groups g) -> In x pg -> In x g.
Proof.
  unfold parent_groups. destruct (groups_by (fun x => td_name (cx_type x)) (filter concrete g)) as [|c cs] eqn:E.
  - intros [<-|[]] H. apply filter_In in H. tauto.
  - rewrite <- E. intros H Hx. apply in_map_iff in H as (c' & <- & Hc). apply in_app_iff in Hx as [Hx|Hx].
    + apply groups_by_In in Hc as (k & _ & Hk). apply Hk in Hx as [Hx _]. apply filter_In in Hx. tauto.
    + apply filter_In in Hx. tauto.
Qed.

(** * Total correctness *)
Definition tot {A} (m : M A) (st : mstate) (Q : A -> mstate -> Prop) : Prop := exists a st', m st = Some (a, st') /\ Q a st'.
Lemma tot_ret {A} (a : A) st (Q : A -> mstate -> Prop) : Q a st -> tot (ret a) st Q.
Proof. exists a, st. auto. Qed.
Lemma tot_bind {A B} (m : M A) (f : A -> M B) st (Q : A -> mstate -> Prop) (R : B -> mstate -> Prop) :
  tot m st Q -> (forall a st', Q a st' -> tot (f a) st' R) -> tot (bind m f) st R.
Proof. intros (a & st' & E & H) K. destruct (K a st' H) as (b & st'' & E' & H'). exists b, st''. unfold bind. rewrite E. auto. Qed.
Lemma tot_foldM {A B} (f : B -> A -> M B) (Inv : B -> mstate -> Prop) l : forall b st,
  (forall b a st, In a l -> Inv b st -> tot (f b a) st Inv) -> Inv b st -> tot (foldM f l b) st Inv.
Proof.
  induction l as [|a l IH]; intros b st Hf Hb; cbn [foldM]; [apply tot_ret; auto|].
  eapply tot_bind; [apply Hf; [left; auto|exact Hb]|]. intros b' st' Hb'. apply IH; auto. intros; apply Hf; auto. right; auto.
Qed.
Lemma tot_collectM {A B} (f : A -> M (list B)) (Inv : mstate -> Prop) l st :
  (forall a st, In a l -> Inv st -> tot (f a) st (fun _ => Inv)) -> Inv st -> tot (collectM f l) st (fun _ => Inv).
Proof.
  intros Hf H. unfold collectM. apply tot_foldM; auto. intros b a st' Ha Hi. eapply tot_bind; [apply Hf; auto|].
  intros x st'' Hx. apply tot_ret. exact Hx.
Qed.

Lemma list_sum_In l x : In x l -> x <= list_sum l.
Proof. unfold list_sum. induction l as [|y l IH]; cbn [fold_right In]; [tauto|]. intros [->|H]; [lia|]. apply IH in H. lia. Qed.
Lemma numbered_In {A} (l : list A) j a : In (j, a) (numbered l) <-> nth_error l j = Some a.
Proof.
  unfold numbered, mapi. rewrite mapi_from_In. split.
  - intros (i & x & H & E). injection E as -> ->. exact H.
  - intros H. exists j, a. auto.
Qed.

Section Termination.
  Variable S : schema.
  Variable d : document.
  Variable ord : nat -> list (list fctx) -> list (list fctx).
  Hypothesis ord_In : forall k l g, In g (ord k l) <-> In g l.
  Set Default Proof Using "Type".

  Lemma tot_order l st (Q : list (list fctx) -> mstate -> Prop) :
    (forall gs, (forall g, In g gs <-> In g l) -> Q gs (tick st)) -> tot (in_some_order ord l) st Q.
  Proof using ord_In. intros H. exists (ord (ms_tick st) l), (tick st). split; auto. Qed.

  Lemma fragment_named_spec n i f : fragment_named d n = Some (i, f) -> nth_error (doc_frags d) i = Some f /\ fr_name f = n.
  Proof.
    unfold fragment_named, mapi. intros H. apply assoc_last_In in H. apply mapi_from_In in H as (j & x & Hj & E).
    injection E as -> -> ->. auto.
  Qed.

  (** * The places of selection sets *)
  Inductive place : set_id -> list selection -> Prop :=
  | pl_op i o : nth_error (doc_ops d) i = Some o -> place (ROp i, []) (op_sel o)
  | pl_frag i f : nth_error (doc_frags d) i = Some f -> place (RFrag i, []) (fr_sel f)
  | pl_field id sels j al n args ds sub : place id sels -> nth_error sels j = Some (SField al n args ds sub) -> place (inner_id id j) sub
  | pl_inline id sels j c ds sub : place id sels -> nth_error sels j = Some (SInline c ds sub) -> place (inner_id id j) sub.

  Fixpoint sel_ids (id : set_id) (j : nat) (s : selection) : list set_id :=
    match s with
    | SField _ _ _ _ sub | SInline _ _ sub =>
        inner_id id j :: (fix go (i : nat) (l : list selection) : list set_id :=
                            match l with [] => [] | x :: l' => sel_ids (inner_id id j) i x ++ go (1 + i) l' end) 0 sub
    | SSpread _ _ => []
    end.
  Fixpoint ids_from (id : set_id) (i : nat) (l : list selection) : list set_id :=
    match l with [] => [] | x :: l' => sel_ids id i x ++ ids_from id (1 + i) l' end.
  Definition set_ids (id : set_id) (l : list selection) : list set_id := id :: ids_from id 0 l.
  Definition all_ids : list set_id :=
    concat (mapi (fun i o => set_ids (ROp i, []) (op_sel o)) (doc_ops d)) ++ concat (mapi (fun i f => set_ids (RFrag i, []) (fr_sel f)) (doc_frags d)).

  Lemma ids_from_fix id l : forall i,
    (fix go (i : nat) (l : list selection) : list set_id := match l with [] => [] | x :: l' => sel_ids id i x ++ go (1 + i) l' end) i l = ids_from id i l.
  Proof. induction l as [|x l IH]; intros i; [reflexivity|]. cbn [ids_from]. f_equal. apply IH. Qed.
  Lemma sel_ids_field id j al n args ds sub : sel_ids id j (SField al n args ds sub) = set_ids (inner_id id j) sub.
  Proof. unfold set_ids. cbn [sel_ids]. f_equal. apply ids_from_fix. Qed.
  Lemma sel_ids_inline id j c ds sub : sel_ids id j (SInline c ds sub) = set_ids (inner_id id j) sub.
  Proof. unfold set_ids. cbn [sel_ids]. f_equal. apply ids_from_fix. Qed.
  Lemma sel_size_field al n args ds sub : sel_size (SField al n args ds sub) = 1 + set_size sub.
  Proof. cbn. unfold set_size. f_equal. induction sub as [|x l IH]; cbn; auto. Qed.
  Lemma sel_size_inline c ds sub : sel_size (SInline c ds sub) = 1 + set_size sub.
  Proof. cbn. unfold set_size. f_equal. induction sub as [|x l IH]; cbn; auto. Qed.
  Lemma ids_from_length l : (forall s, In s l -> forall id j, length (sel_ids id j s) <= sel_size s) -> forall id i, length (ids_from id i l) <= set_size l.
  Proof.
    induction l as [|x l IH]; intros H id i; cbn [ids_from]; [cbn; lia|]. rewrite app_length. pose proof (H x (or_introl eq_refl) id i).
    pose proof (IH (fun s Hs => H s (or_intror Hs)) id (1 + i)). change (set_size (x :: l)) with (sel_size x + set_size l). lia.
  Qed.
  Lemma sel_ids_length s : forall id j, length (sel_ids id j s) <= sel_size s.
  Proof.
    induction s as [al n args ds sub IH|n ds|c ds sub IH] using selection_ind'; intros id j.
    - rewrite sel_ids_field, sel_size_field. cbn [set_ids length]. rewrite Forall_forall in IH. pose proof (ids_from_length sub IH (inner_id id j) 0). lia.
    - cbn. lia.
    - rewrite sel_ids_inline, sel_size_inline. cbn [set_ids length]. rewrite Forall_forall in IH. pose proof (ids_from_length sub IH (inner_id id j) 0). lia.
  Qed.
  Lemma set_ids_length id l : length (set_ids id l) <= 1 + set_size l.
  Proof. cbn. pose proof (ids_from_length l (fun s _ => sel_ids_length s) id 0). lia. Qed.
  Lemma ids_from_In l : forall id i j s x, nth_error l j = Some s -> In x (sel_ids id (i + j) s) -> In x (ids_from id i l).
  Proof.
    induction l as [|y l IH]; intros id i j s x Hj Hx; [destruct j; discriminate|]. cbn. apply in_app_iff. destruct j as [|j].
    - left. cbn in Hj. injection Hj as ->. rewrite Nat.add_0_r in Hx. auto.
    - right. apply (IH id (1 + i) j s x Hj). replace (1 + i + j) with (i + Datatypes.S j) by lia. auto.
  Qed.
  Lemma place_ids id sels : place id sels -> incl (set_ids id sels) all_ids.
  Proof.
    induction 1 as [i o Ho|i f Hf|id sels j al n args ds sub Hp IH Hj|id sels j c ds sub Hp IH Hj].
    - intros x Hx. apply in_app_iff. left. apply in_concat. eexists. split; [|exact Hx]. unfold mapi. apply mapi_from_In. exists i, o. auto.
    - intros x Hx. apply in_app_iff. right. apply in_concat. eexists. split; [|exact Hx]. unfold mapi. apply mapi_from_In. exists i, f. auto.
    - intros x Hx. apply IH. right. apply (ids_from_In sels id 0 j _ x Hj). rewrite sel_ids_field. exact Hx.
    - intros x Hx. apply IH. right. apply (ids_from_In sels id 0 j _ x Hj). rewrite sel_ids_inline. exact Hx.
  Qed.
  Lemma place_id id sels : place id sels -> In id all_ids.
  Proof. intros H. apply (place_ids _ _ H). left; auto. Qed.
  Lemma nth_size sels j s : nth_error sels j = Some s -> sel_size s <= set_size sels.
  Proof. intros H. apply nth_error_In in H. unfold set_size. apply list_sum_In, in_map; auto. Qed.
  Lemma place_size id sels : place id sels -> set_size sels <= document_size d.
  Proof.
    induction 1 as [i o Ho|i f Hf|id sels j al n args ds sub Hp IH Hj|id sels j c ds sub Hp IH Hj].
    - unfold document_size. apply nth_error_In in Ho. pose proof (list_sum_In _ _ (in_map (fun o => set_size (op_sel o)) _ _ Ho)). cbn in *. lia.
    - unfold document_size. apply nth_error_In in Hf. pose proof (list_sum_In _ _ (in_map (fun f => set_size (fr_sel f)) _ _ Hf)). cbn in *. lia.
    - apply nth_size in Hj. rewrite sel_size_field in Hj. lia.
    - apply nth_size in Hj. rewrite sel_size_inline in Hj. lia.
  Qed.
  Lemma concat_length {B} (l : list B) (f : nat -> B -> list set_id) (g : B -> nat) :
    (forall i b, length (f i b) <= 1 + g b) -> forall k, length (concat (mapi_from f k l)) <= length l + list_sum (map g l).
  Proof.
    intros H. induction l as [|b l IH]; intros k; [cbn; lia|]. cbn [mapi_from concat length map].
    change (list_sum (g b :: map g l)) with (g b + list_sum (map g l)). rewrite app_length. pose proof (H k b). pose proof (IH (Datatypes.S k)). unfold mapi_from in *. lia.
  Qed.
  Lemma all_ids_length : length all_ids <= length (doc_ops d) + length (doc_frags d) + document_size d.
  Proof.
    unfold all_ids, mapi, document_size. rewrite app_length.
    pose proof (concat_length (doc_ops d) (fun i o => set_ids (ROp i, []) (op_sel o)) (fun o => set_size (op_sel o)) (fun i o => set_ids_length _ _) 0).
    pose proof (concat_length (doc_frags d) (fun i f => set_ids (RFrag i, []) (fr_sel f)) (fun f => set_size (fr_sel f)) (fun i f => set_ids_length _ _) 0).
    cbn beta in *. lia.
  Qed.

  (** * The measures *)
  Definition unseen (st : mstate) : nat := length (filter (fun id => match lookup id (ms_cache st) with None => true | _ => false end) all_ids).
  Definition names_left (frags : list name) : nat := length (filter (fun n => negb (tmem n frags)) (map fr_name (doc_frags d))).
  Definition rank (frags : list name) (sels : list selection) : nat := names_left frags * (1 + document_size d) + set_size sels.
  Definition max_rank : nat := (1 + length (doc_frags d)) * (1 + document_size d).

  Lemma filter_le {A} (f g : A -> bool) l : (forall a, In a l -> f a = true -> g a = true) -> length (filter f l) <= length (filter g l).
  Proof.
    induction l as [|a l IH]; intros H; cbn; auto. pose proof (IH (fun x Hx => H x (or_intror Hx))).
    pose proof (H a (or_introl eq_refl)). destruct (f a); [rewrite (H1 eq_refl)|destruct (g a)]; cbn; lia.
  Qed.
  Lemma filter_lt {A} (f g : A -> bool) l a : In a l -> f a = false -> g a = true -> (forall a, In a l -> f a = true -> g a = true) -> length (filter f l) < length (filter g l).
  Proof.
    intros Ha Hf Hg H. induction l as [|x l IH]; [destruct Ha|]. cbn.
    pose proof (filter_le f g l (fun x Hx => H x (or_intror Hx))). destruct Ha as [->|Ha].
    - rewrite Hf, Hg. cbn. lia.
    - pose proof (IH Ha (fun x Hx => H x (or_intror Hx))). pose proof (H x (or_introl eq_refl)).
      destruct (f x); [rewrite (H2 eq_refl)|destruct (g x)]; cbn; lia.
  Qed.
  Lemma unseen_insert_le id es st : unseen (insert id es st) <= unseen st.
  Proof.
    apply filter_le. intros x _. destruct (set_id_dec x id) as [->|Hn]; [rewrite lookup_insert; discriminate|].
    rewrite lookup_insert_other; auto.
  Qed.
  Lemma unseen_insert id es st : In id all_ids -> lookup id (ms_cache st) = None -> unseen (insert id es st) < unseen st.
  Proof.
    intros H E. apply (filter_lt _ _ _ id); auto.
    - rewrite lookup_insert. reflexivity.
    - rewrite E. reflexivity.
    - intros x _. destruct (set_id_dec x id) as [->|Hn]; [rewrite lookup_insert; discriminate|]. rewrite lookup_insert_other; auto.
  Qed.
  Lemma names_left_cons n frags i f : fragment_named d n = Some (i, f) -> tmem n frags = false -> names_left (n :: frags) < names_left frags.
  Proof.
    intros H Hm. apply fragment_named_spec in H as [Hi Hn]. apply (filter_lt _ _ _ n).
    - rewrite <- Hn. apply in_map. eapply nth_error_In; eauto.
    - cbn. rewrite teqb_refl. reflexivity.
    - rewrite Hm. reflexivity.
    - intros x _. cbn. destruct (teqb x n); cbn; auto. discriminate.
  Qed.
  Lemma rank_max frags id sels : place id sels -> rank frags sels < max_rank.
  Proof.
    intros H. apply place_size in H. unfold rank, max_rank, names_left.
    pose proof (filter_le (fun n => negb (tmem n frags)) (fun _ => true) (map fr_name (doc_frags d)) (fun _ _ _ => eq_refl)) as L.
    assert (E : forall l : list name, filter (fun _ => true) l = l) by (induction l; cbn; congruence). rewrite E, map_length in L. nia.
  Qed.
  Lemma rank_fragment frags n i f id sels : fragment_named d n = Some (i, f) -> tmem n frags = false -> place id sels -> rank (n :: frags) (fr_sel f) < rank frags sels.
  Proof.
    intros H Hm Hp. pose proof (names_left_cons n frags i f H Hm). apply fragment_named_spec in H as [Hi _].
    pose proof (place_size _ _ (pl_frag i f Hi)). unfold rank. nia.
  Qed.

  (** * The recursion *)
  Definition cost : nat := 3 + max_rank.
  Definition ctx_in (x : fctx) : Prop := place (cx_id x) (cx_sub x).
  Definition ctx_rank (x : fctx) : nat := rank (cx_frags x) (cx_sub x).

  Definition valid_terminates (u : nat) (valid : valid_fn) : Prop :=
    forall id sels t st, place id sels -> unseen st <= u -> tot (valid id sels t) st (fun _ st' => unseen st' <= u).
  (** the contexts pushed have a smaller rank than the selection set they are in *)
  Definition visit_terminates (u r : nat) (visit : visit_fn) : Prop :=
    forall id sels t frags acc st, place id sels -> unseen st <= u -> rank frags sels <= r ->
      tot (visit id sels t frags acc) st (fun out st' => unseen st' <= u /\ forall x, In x out -> In x acc \/ ctx_in x /\ ctx_rank x < rank frags sels).

  Lemma nested_terminates u r valid visit g st :
    valid_terminates u valid -> visit_terminates u r visit -> (forall x, In x g -> ctx_in x /\ ctx_rank x <= r) -> unseen st <= u ->
    tot (nested_fields S valid visit g) st (fun out st' => unseen st' <= u /\ forall x, In x out -> ctx_in x /\ ctx_rank x < r).
  Proof.
    intros Hv Hw Hg Hu. unfold nested_fields. apply tot_foldM; [|split; auto; intros x []].
    intros acc x st' Hx [Hu' Hacc]. destruct (Hg x Hx) as [Hp Hr].
    destruct (cx_sub x) as [|s sub] eqn:Es; [apply tot_ret; auto|]. rewrite <- Es in *.
    destruct (get_type S (tref_base (fd_type (cx_def x)))) as [t|]; [|apply tot_ret; auto].
    eapply tot_bind; [apply Hv; auto|]. intros b st2 Hu2. cbn beta in Hu2. destruct b; [|apply tot_ret; auto].
    destruct (Hw (cx_id x) (cx_sub x) t (cx_frags x) acc st2 Hp Hu2 Hr) as (out & st3 & E & Hu3 & Hout).
    exists out, st3. split; auto. split; auto. intros y Hy. destruct (Hout y Hy) as [H|[H1 H2]]; [apply Hacc; auto|].
    split; auto. unfold ctx_rank in Hr. lia.
  Qed.

  Lemma visit_one_terminates u r valid visit id sels t frags acc js st :
    valid_terminates u valid -> visit_terminates u r visit -> place id sels -> In js (numbered sels) -> rank frags sels <= 1 + r -> unseen st <= u ->
    tot (visit_one S d valid visit id t frags acc js) st
      (fun out st' => unseen st' <= u /\ forall x, In x out -> In x acc \/ ctx_in x /\ ctx_rank x < rank frags sels).
  Proof.
    intros Hv Hw Hp Hjs Hr Hu. destruct js as [j s]. apply (proj1 (numbered_In _ _ _)) in Hjs. unfold visit_one. cbn [fst snd].
    pose proof (nth_size _ _ _ Hjs) as Hsz. destruct s as [al n args ds sub|n ds|c ds sub].
    - apply tot_ret. split; auto. intros x Hx. apply in_app_iff in Hx as [Hx|Hx]; [left; auto|]. right.
      unfold field_context in Hx. destruct (get_field (td_fields t) n); [|destruct Hx]. destruct Hx as [<-|[]].
      unfold ctx_in, ctx_rank. cbn. split; [eapply pl_field; eauto|]. rewrite sel_size_field in Hsz. unfold rank. lia.
    - destruct (tmem n frags) eqn:Em; [apply tot_ret; auto|]. destruct (fragment_named d n) as [[i f]|] eqn:Ef; [|apply tot_ret; auto].
      destruct (get_type S (fr_cond f)) as [t1|]; [|apply tot_ret; auto].
      assert (Hpf : place (RFrag i, []) (fr_sel f)) by (apply pl_frag; apply fragment_named_spec in Ef; tauto).
      eapply tot_bind; [apply Hv; eauto|]. intros b st2 Hu2. cbn beta in Hu2. destruct b; [|apply tot_ret; auto].
      pose proof (rank_fragment frags n i f id sels Ef Em Hp) as Hlt.
      destruct (Hw (RFrag i, []) (fr_sel f) t1 (n :: frags) acc st2 Hpf Hu2) as (out & st3 & E & Hu3 & Hout); [lia|].
      exists out, st3. split; auto. split; auto. intros y Hy. destruct (Hout y Hy) as [H|[H1 H2]]; [left; auto|right; split; auto; lia].
    - destruct (match c with Some c => get_type S c | None => Some t end) as [t1|]; [|apply tot_ret; auto].
      assert (Hpi : place (inner_id id j) sub) by (eapply pl_inline; eauto).
      eapply tot_bind; [apply Hv; eauto|]. intros b st2 Hu2. cbn beta in Hu2. destruct b; [|apply tot_ret; auto].
      rewrite sel_size_inline in Hsz. assert (Hlt : rank frags sub < rank frags sels) by (unfold rank; lia).
      destruct (Hw (inner_id id j) sub t1 frags acc st2 Hpi Hu2) as (out & st3 & E & Hu3 & Hout); [lia|].
      exists out, st3. split; auto. split; auto. intros y Hy. destruct (Hout y Hy) as [H|[H1 H2]]; [left; auto|right; split; auto; lia].
  Qed.

  Notation sv := (set_valid S d ord).
  Notation vf := (visit_fields S d ord).
  Notation sh := (same_shape S d ord).
  Notation sp := (same_parents S d ord).

  Lemma in_groups gs nested r : (forall g, In g gs <-> In g (groups_by cx_key nested)) -> (forall x, In x nested -> ctx_in x /\ ctx_rank x < r) ->
    forall g, In g gs -> forall x, In x g -> ctx_in x /\ ctx_rank x < r.
  Proof. intros Hgs Hn g Hg x Hx. apply Hgs, groups_by_In in Hg as (k & _ & Hk). apply Hk in Hx. apply Hn. tauto. Qed.

  Lemma terminates fuel :
    (forall u, 1 + u * cost <= fuel -> valid_terminates u (sv fuel)) /\
    (forall u r, 2 + r + u * cost <= fuel -> visit_terminates u r (vf fuel)) /\
    (forall u r id g st, 3 + r + u * cost <= fuel -> (forall x, In x g -> ctx_in x /\ ctx_rank x <= r) -> unseen st <= u ->
       tot (sh fuel id g) st (fun _ st' => unseen st' <= u)) /\
    (forall u r id g st, 3 + r + u * cost <= fuel -> (forall x, In x g -> ctx_in x /\ ctx_rank x <= r) -> unseen st <= u ->
       tot (sp fuel id g) st (fun _ st' => unseen st' <= u)).
  Proof using ord_In.
    induction fuel as [|fuel (IHv & IHw & IHs & IHp)]; [repeat split; intros; lia|]. repeat split.
    - intros u Hf id sels t st Hp Hu. cbn [set_valid]. unfold tot. destruct (lookup id (ms_cache st)) as [es|] eqn:E.
      + exists (is_nil es), st. auto.
      + pose proof (unseen_insert id [] st (place_id _ _ Hp) E) as Hlt. destruct u as [|u]; [lia|].
        set (st0 := insert id [] st) in *. assert (Hu0 : unseen st0 <= u) by lia. unfold cost in Hf. cbn [Nat.mul] in Hf. fold cost in Hf.
        pose proof (rank_max [] id sels Hp) as Hmax.
        change (tot (let! fields := vf fuel id sels t [] [] in
                     let! gs := in_some_order ord (groups_by cx_key fields) in
                     let! es := collectM (fun g => let! e1 := sh fuel id g in let! e2 := sp fuel id g in ret (e1 ++ e2)) gs in
                     (fun st' => Some (is_nil es, insert id es st'))) st0 (fun _ st' => unseen st' <= Datatypes.S u)).
        eapply tot_bind; [apply (IHw u (rank [] sels)); auto; unfold cost in *; lia|]. cbn beta. intros fields st1 [Hu1 Hfs].
        eapply tot_bind; [apply (tot_order _ _ (fun gs st' => unseen st' <= u /\ forall g, In g gs -> forall x, In x g -> ctx_in x /\ ctx_rank x < rank [] sels))|].
        { intros gs Hgs. split; [exact Hu1|]. apply (in_groups gs fields); auto. intros x Hx. destruct (Hfs x Hx) as [[]|H]; auto. }
        cbn beta. intros gs st2 [Hu2 Hgs]. eapply tot_bind; [apply (tot_collectM _ (fun st => unseen st <= u)); auto|].
        { intros g st3 Hg Hu3.
          assert (Hgr : forall x, In x g -> ctx_in x /\ ctx_rank x <= rank [] sels) by (intros x Hx; destruct (Hgs g Hg x Hx); split; auto; lia).
          eapply tot_bind; [apply (IHs u (rank [] sels)); auto; unfold cost in *; lia|]. cbn beta. intros e1 st4 Hu4.
          eapply tot_bind; [apply (IHp u (rank [] sels)); auto; unfold cost in *; lia|]. cbn beta. intros e2 st5 Hu5. apply tot_ret; auto. }
        cbn beta. intros es st3 Hu3. exists (is_nil es), (insert id es st3). split; auto. pose proof (unseen_insert_le id es st3). lia.
    - intros u r Hf id sels t frags acc st Hp Hu Hr. cbn [visit_fields].
      apply (tot_foldM _ (fun out st' => unseen st' <= u /\ forall x, In x out -> In x acc \/ ctx_in x /\ ctx_rank x < rank frags sels)); [|auto].
      intros out js st' Hjs [Hu' Hout].
      destruct (rank frags sels) as [|r'] eqn:Er.
      { exfalso. destruct js as [j s]. apply (proj1 (numbered_In _ _ _)) in Hjs. pose proof (nth_size _ _ _ Hjs) as H. unfold rank in Er.
        destruct s; [rewrite sel_size_field in H|cbn in H|rewrite sel_size_inline in H]; lia. }
      destruct (visit_one_terminates u r' (sv fuel) (vf fuel) id sels t frags out js st') as (out' & st2 & E & Hu2 & Hout'); auto.
      + apply IHv. lia.
      + apply IHw. lia.
      + lia.
      + exists out', st2. split; auto. split; auto. intros x Hx. rewrite Er in Hout'. destruct (Hout' x Hx) as [H|H]; auto.
    - intros u r id g st Hf Hg Hu. cbn [same_shape]. destruct g as [|x [|y g]]; [apply tot_ret; auto|apply tot_ret; auto|].
      destruct (is_nil (shape_errors S id x (y :: g))); [|apply tot_ret; auto].
      eapply tot_bind; [apply (nested_terminates u r); auto; [apply IHv; lia|apply IHw; lia]|]. cbn beta. intros nested st1 [Hu1 Hn].
      eapply tot_bind; [apply (tot_order _ _ (fun gs st' => unseen st' <= u /\ forall g, In g gs -> forall x, In x g -> ctx_in x /\ ctx_rank x < r))|].
      { intros gs Hgs. split; [exact Hu1|]. apply (in_groups gs nested); auto. }
      cbn beta. intros gs st2 [Hu2 Hgs]. apply (tot_collectM _ (fun st => unseen st <= u)); auto.
      intros g' st3 Hg' Hu3. destruct r as [|r]; [|apply (IHs u r); auto; [lia|intros z Hz; destruct (Hgs g' Hg' z Hz); split; auto; lia]].
      destruct g' as [|z g']; [|destruct (Hgs _ Hg' z (or_introl eq_refl)); lia]. destruct fuel; [lia|]. cbn [same_shape]. apply tot_ret; auto.
    - intros u r id g st Hf Hg Hu. cbn [same_parents]. destruct g as [|x [|y g]]; [apply tot_ret; auto|apply tot_ret; auto|].
      eapply tot_bind; [apply (tot_order _ _ (fun pgs st' => unseen st' <= u /\ forall g', In g' pgs <-> In g' (parent_groups (x :: y :: g))))|].
      { intros gs Hgs. split; auto. }
      cbn beta. intros pgs st1 [Hu1 Hpgs]. apply (tot_collectM _ (fun st => unseen st <= u)); auto.
      intros pg st2 Hpg Hu2. destruct (is_nil (parent_errors id pg)); [|apply tot_ret; auto].
      assert (Hpgr : forall z, In z pg -> ctx_in z /\ ctx_rank z <= r) by (intros z Hz; apply Hg; apply Hpgs in Hpg; eapply parent_groups_incl; eauto).
      eapply tot_bind; [apply (nested_terminates u r); auto; [apply IHv; lia|apply IHw; lia]|]. cbn beta. intros nested st3 [Hu3 Hn].
      eapply tot_bind; [apply (tot_order _ _ (fun gs st' => unseen st' <= u /\ forall g, In g gs -> forall x, In x g -> ctx_in x /\ ctx_rank x < r))|].
      { intros gs Hgs. split; [exact Hu3|]. apply (in_groups gs nested); auto. }
      cbn beta. intros gs st4 [Hu4 Hgs]. apply (tot_collectM _ (fun st => unseen st <= u)); auto.
      intros g' st5 Hg' Hu5. destruct r as [|r]; [|apply (IHp u r); auto; [lia|intros z Hz; destruct (Hgs g' Hg' z Hz); split; auto; lia]].
      destruct g' as [|z g']; [|destruct (Hgs _ Hg' z (or_introl eq_refl)); lia]. destruct fuel; [lia|]. cbn [same_parents]. apply tot_ret; auto.
  Qed.

  (** * The sets that the orchestrator passes are places *)
  Lemma sets_from_fix id t l : forall i,
    (fix go (i : nat) (l : list selection) : list (set_id * list selection * tdef) :=
       match l with [] => [] | x :: l' => sets_in S id t i x ++ go (1 + i) l' end) i l = sets_from S id t i l.
  Proof. induction l as [|x l IH]; intros i; [reflexivity|]. cbn [sets_from]. f_equal. apply IH. Qed.
  Lemma sets_in_field id t j al n args ds sub :
    sets_in S id t j (SField al n args ds sub) =
    match get_field (td_fields t) n with
    | None => []
    | Some fd => match sub with [] => [] | _ => match get_type S (tref_base (fd_type fd)) with Some t' => sets_of S (inner_id id j) t' sub | None => [] end end
    end.
  Proof.
    cbn [sets_in]. destruct (get_field (td_fields t) n) as [fd|]; [|reflexivity]. destruct sub as [|s sub]; [reflexivity|].
    destruct (get_type S (tref_base (fd_type fd))); [|reflexivity]. unfold sets_of. f_equal. apply (sets_from_fix (inner_id id j) _ (s :: sub) 0).
  Qed.
  Lemma sets_in_inline id t j c ds sub :
    sets_in S id t j (SInline c ds sub) =
    match (match c with Some c => get_type S c | None => Some t end) with Some t' => sets_of S (inner_id id j) t' sub | None => [] end.
  Proof. cbn [sets_in]. destruct (match c with Some c => get_type S c | None => Some t end); [|reflexivity]. unfold sets_of. f_equal. apply sets_from_fix. Qed.
  Lemma sets_from_In l : forall id t i e, In e (sets_from S id t i l) <-> exists j s, nth_error l j = Some s /\ In e (sets_in S id t (i + j) s).
  Proof.
    induction l as [|y l IH]; intros id t i e; cbn.
    - split; [tauto|]. intros (j & s & H & _). destruct j; discriminate.
    - rewrite in_app_iff, IH. split.
      + intros [H|(j & s & H & H')]; [exists 0, y; rewrite Nat.add_0_r; auto|]. exists (Datatypes.S j), s. split; auto. replace (i + Datatypes.S j) with (Datatypes.S (i + j)) by lia. auto.
      + intros (j & s & H & H'). destruct j as [|j].
        * left. injection H as ->. rewrite Nat.add_0_r in H'. auto.
        * right. exists j, s. split; auto. replace (i + Datatypes.S j) with (Datatypes.S (i + j)) in H' by lia. auto.
  Qed.
  Lemma sets_in_place : forall s id sels t j e, place id sels -> nth_error sels j = Some s -> In e (sets_in S id t j s) -> place (fst (fst e)) (snd (fst e)).
  Proof.
    induction s as [al n args ds sub IH|n ds|c ds sub IH] using selection_ind'; intros id sels t j e Hp Hj He.
    - rewrite sets_in_field in He. destruct (get_field (td_fields t) n) as [fd|]; [|destruct He].
      destruct sub as [|s sub]; [destruct He|]. destruct (get_type S (tref_base (fd_type fd))) as [t'|]; [|destruct He].
      rewrite Forall_forall in IH. pose proof (pl_field _ _ _ _ _ _ _ _ Hp Hj) as Hp'.
      destruct He as [<-|He]; [exact Hp'|]. apply (proj1 (sets_from_In _ _ _ _ _)) in He as (k & s' & Hk & He). eapply IH; eauto. eapply nth_error_In; eauto.
    - destruct He.
    - rewrite sets_in_inline in He. destruct (match c with Some c => get_type S c | None => Some t end) as [t'|]; [|destruct He].
      rewrite Forall_forall in IH. pose proof (pl_inline _ _ _ _ _ _ Hp Hj) as Hp'.
      destruct He as [<-|He]; [exact Hp'|]. apply (proj1 (sets_from_In _ _ _ _ _)) in He as (k & s' & Hk & He). eapply IH; eauto. eapply nth_error_In; eauto.
  Qed.
  Lemma document_sets_place e : In e (document_sets S d) -> place (fst (fst e)) (snd (fst e)).
  Proof.
    unfold document_sets, mapi. intros H. apply in_app_iff in H as [H|H]; apply in_concat in H as (l & Hl & He); apply mapi_from_In in Hl as (i & x & Hi & ->).
    - destruct (op_root_name S (op_type x)); [|destruct He]. destruct (get_type S t) as [t'|]; [|destruct He].
      pose proof (pl_op _ _ Hi) as Hp. destruct He as [<-|He]; [exact Hp|]. apply (proj1 (sets_from_In _ _ _ _ _)) in He as (k & s' & Hk & He). eapply sets_in_place; eauto.
    - destruct (get_type S (fr_cond x)) as [t'|]; [|destruct He].
      pose proof (pl_frag _ _ Hi) as Hp. destruct He as [<-|He]; [exact Hp|]. apply (proj1 (sets_from_In _ _ _ _ _)) in He as (k & s' & Hk & He). eapply sets_in_place; eauto.
  Qed.

  Lemma merging_run_total : exists st, merging_run S d ord (merging_fuel d) = Some st.
  Proof using ord_In.
    unfold merging_run. set (st0 := {| ms_cache := []; ms_tick := 0 |}). set (u := length all_ids).
    assert (Hf : 1 + u * cost <= merging_fuel d).
    { pose proof all_ids_length. unfold merging_fuel, cost, max_rank. subst u. nia. }
    destruct (tot_foldM (fun (_ : bool) e => sv (merging_fuel d) (fst (fst e)) (snd (fst e)) (snd e)) (fun _ st => unseen st <= u) (document_sets S d) true st0)
      as (b & st & E & _).
    - intros b e st He Hu. apply (proj1 (terminates (merging_fuel d)) u Hf); auto. apply document_sets_place; auto.
    - unfold unseen, u. clear. induction all_ids as [|x l IH]; cbn in *; auto. lia.
    - exists st. rewrite E. reflexivity.
  Qed.
End Termination.
