(** Leaving out parts of a valid document: lemmas for C87. *)
From Verif Require Import Base Ast CoercionSpec Graph Doc DocSpec DocRules DocRulesSpec FragmentsSpec FragmentCyclesProofs DocVariablesSpec ValueEqSpec
  MergingSpec ValiditySpec TrimSpec.

Lemma thinner_positions {A} (R : A -> A -> Prop) l l' : thinner R l l' ->
  exists p : nat -> nat, (forall i j, i < j -> p i < p j) /\
    forall i a, nth_error l i = Some a -> exists b, nth_error l' (p i) = Some b /\ R a b.
Proof.
  induction 1 as [l'|a b l l' H _ (p & M & P)|l b l' _ (p & M & P)].
  - exists (fun i => i). split; auto. intros [|i] a E; discriminate E.
  - exists (fun i => match i with 0 => 0 | Datatypes.S i => Datatypes.S (p i) end). split.
    + intros [|i] [|j] L; try lia. specialize (M i j). lia.
    + intros [|i] x E; cbn in *; [injection E as <-; eauto|auto].
  - exists (fun i => Datatypes.S (p i)). split; [intros i j L; specialize (M i j L); lia|auto].
Qed.
Lemma thinner_in {A} (R : A -> A -> Prop) l l' : thinner R l l' -> forall a, In a l -> exists b, In b l' /\ R a b.
Proof.
  intros H a Ha. destruct (thinner_positions R l l' H) as (p & _ & P). apply In_nth_error in Ha as (i & E).
  destruct (P i a E) as (b & E' & Hr). exists b. split; auto. eapply nth_error_In; eauto.
Qed.

Section Trim.
  Variable S : schema.
  Variables d d' : document.
  Hypothesis T : trimmed d d'.
  Hypothesis ND' : NoDup (map fr_name (doc_frags d')).

  Lemma names_once : NoDup (map fr_name (doc_frags d)).
  Proof using T ND'.
    destruct T as [_ F]. clear T. induction F as [l'|a b l l' H F IH|l b l' F IH]; cbn in *; [constructor| |]; inversion ND'; subst; auto.
    constructor; auto. destruct H as [E _ _ _]. rewrite E. intros Hi. apply in_map_iff in Hi as (x & Ex & Hx).
    destruct (thinner_in _ _ _ F x Hx) as (y & Hy & [Ey _ _ _]). apply H2. rewrite <- Ex, Ey. apply in_map; auto.
  Qed.
  Lemma defines_in_iff e n f : NoDup (map fr_name (doc_frags e)) -> (defines e n f <-> In f (doc_frags e) /\ fr_name f = n).
  Proof using.
    intros N. split.
    - intros (b & a & E & En & _). split; auto. rewrite E. apply in_elt.
    - intros (Hi & En). apply in_split in Hi as (b & a & E). exists b, a. split; [auto|]. split; [auto|]. rewrite E, map_app in N. cbn in N.
      apply NoDup_remove_2 in N. rewrite in_app_iff in N. rewrite <- En. tauto.
  Qed.
  Lemma defines_more n f : defines d n f -> exists f', defines d' n f' /\ trim_fragment f f'.
  Proof using T ND'.
    intros H. apply (defines_in_iff d n f names_once) in H as (Hi & E). destruct (thinner_in _ _ _ (tr_frags _ _ T) f Hi) as (f' & Hi' & Hf).
    exists f'. split; auto. apply (defines_in_iff d' n f' ND'). split; auto. rewrite <- (tf_name _ _ Hf). auto.
  Qed.

  Variables p q : nat -> nat.
  Hypothesis Hp : forall i o, nth_error (doc_ops d) i = Some o -> exists o', nth_error (doc_ops d') (p i) = Some o' /\ trim_operation o o'.
  Hypothesis Hq : forall i f, nth_error (doc_frags d) i = Some f -> exists f', nth_error (doc_frags d') (q i) = Some f' /\ trim_fragment f f'.
  Definition from (r : root) : root := match r with ROp i => ROp (p i) | RFrag i => RFrag (q i) end.

  Lemma op_more o : In o (doc_ops d) -> exists o', In o' (doc_ops d') /\ trim_operation o o'.
  Proof using T. apply (thinner_in _ _ _ (tr_ops _ _ T)). Qed.
  Lemma within_more t sels t1 sels1 : within S t sels t1 sels1 -> forall sels', trims sels sels' ->
    exists sels1', within S t sels' t1 sels1' /\ trims sels1 sels1'.
  Proof using.
    induction 1 as [t sels|t sels al n args ds sub fd t1 t' sels1 Hi Hn Hf Ht _ IH|t sels ds sub t' sels1 Hi _ IH|t sels c ds sub t1 t' sels1 Hi Ht _ IH];
      intros sels' P.
    - exists sels'. split; auto. constructor.
    - destruct (P _ Hi) as (s' & Hi' & Hs). inversion Hs as [? ? ? ? ? sub' _ Hsub| |]; subst. destruct (IH sub' Hsub) as (x & W & Px). exists x. split; auto.
      eapply within_field; eauto. intros ->. destruct sub as [|s sub]; [auto|]. destruct (Hsub s (or_introl eq_refl)) as (? & [] & _).
    - destruct (P _ Hi) as (s' & Hi' & Hs). inversion Hs as [|? ? ? sub' Hsub|]; subst. destruct (IH sub' Hsub) as (x & W & Px). exists x. split; auto.
      eapply within_inline; eauto.
    - destruct (P _ Hi) as (s' & Hi' & Hs). inversion Hs as [|? ? ? sub' Hsub|]; subst. destruct (IH sub' Hsub) as (x & W & Px). exists x. split; auto.
      eapply within_inline_on; eauto.
  Qed.
  Lemma set_more r t sels : set_at S d r t sels -> exists sels', set_at S d' (from r) t sels' /\ trims sels sels'.
  Proof using Hp Hq.
    intros (t0 & sels0 & H & W). destruct H as [i o t0 E Ht|i f t0 E Ht].
    - destruct (Hp i o E) as (o' & E' & Ho). destruct (within_more _ _ _ _ W _ (to_sel _ _ Ho)) as (x & W' & P). exists x. split; auto.
      exists t0, (op_sel o'). split; auto. cbn. constructor; auto. rewrite <- (to_type _ _ Ho). auto.
    - destruct (Hq i f E) as (f' & E' & Hf). destruct (within_more _ _ _ _ W _ (tf_sel _ _ Hf)) as (x & W' & P). exists x. split; auto.
      exists t0, (fr_sel f'). split; auto. cbn. constructor; auto. rewrite <- (tf_cond _ _ Hf). auto.
  Qed.
  Lemma sel_more r t s : sel_at S d r t s -> exists s', sel_at S d' (from r) t s' /\ trim s s'.
  Proof using Hp Hq.
    intros (sels & H & Hi). destruct (set_more r t sels H) as (sels' & H' & P). destruct (P _ Hi) as (s' & Hi' & Hs). exists s'. split; auto. exists sels'. auto.
  Qed.
  Lemma directives_more r ds loc : directives_at S d r ds loc -> directives_at S d' (from r) ds loc.
  Proof using Hp Hq.
    destruct 1 as [i o E N|i f E N|r t al n args ds sub fd H Hf N|r t n ds H N|r t c ds sub H N].
    - destruct (Hp i o E) as (o' & E' & Ho). rewrite (to_dirs _ _ Ho) in *. rewrite (to_type _ _ Ho). cbn. apply (dirs_op S d' (p i) o'); auto.
    - destruct (Hq i f E) as (f' & E' & Hf). rewrite (tf_dirs _ _ Hf) in *. cbn. apply (dirs_frag S d' (q i) f'); auto.
    - destruct (sel_more _ _ _ H) as (s' & H' & Hs). inversion Hs; subst. eapply dirs_field; eauto.
    - destruct (sel_more _ _ _ H) as (s' & H' & Hs). inversion Hs; subst. eapply dirs_spread; eauto.
    - destruct (sel_more _ _ _ H) as (s' & H' & Hs). inversion Hs; subst. eapply dirs_inline; eauto.
  Qed.
  Lemma const_directives_more ds : const_directives_at d ds -> const_directives_at d' ds.
  Proof using T.
    intros (N & o & v & Ho & Hv & E). destruct (op_more o Ho) as (o' & Ho' & Hto). split; auto. exists o', v. rewrite <- (to_vars _ _ Hto). auto.
  Qed.
  Lemma argument_more r a i : argument_at S d r a i -> argument_at S d' (from r) a i.
  Proof using Hp Hq.
    destruct 1 as [r t al n args ds sub fd a i H Hf Ha Hi|r ds loc x dd a i H Hx Hd Ha Hi].
    - destruct (sel_more _ _ _ H) as (s' & H' & Hs). inversion Hs; subst. eapply arg_field; eauto.
    - eapply arg_directive; eauto using directives_more.
  Qed.
  Lemma const_argument_more a i : const_argument_at S d a i -> const_argument_at S d' a i.
  Proof using T. intros (ds & x & dd & H & K). exists ds, x, dd. split; auto using const_directives_more. Qed.
  Lemma args_more w args defs : args_at S d w args defs -> args_at S d' w args defs.
  Proof using T Hp Hq.
    destruct 1 as [r t al n args ds sub fd H Hf|r ds loc x dd H Hx Hd|ds x dd H Hx Hd].
    - destruct (sel_more _ _ _ H) as (s' & H' & Hs). inversion Hs; subst. eapply args_field; eauto.
    - eapply args_directive; eauto using directives_more.
    - eapply args_const_directive; eauto using const_directives_more.
  Qed.
  Lemma directive_more x loc : directive_at S d x loc -> directive_at S d' x loc.
  Proof using T Hp Hq.
    destruct 1 as [r ds loc x H Hx|ds x H Hx]; [eapply dir_var; eauto using directives_more|eapply dir_const; eauto using const_directives_more].
  Qed.

  (** ** Selections *)
  Lemma sel_ok_less t s' : sel_ok S t s' -> forall s, trim s s' -> sel_ok S t s.
  Proof using.
    induction 1 as [t al n args ds fd ft Hf Ht Hl|t al n args ds sub fd ft Hf Ht Hl Hn _ IH|t n ds|t ds sub _ IH|t c ds sub ft Ht Hc _ IH]; intros s Hs;
      inversion Hs as [? ? ? ? sub1 ? He Hsub|? ? sub1 ? Hsub|]; subst.
    - destruct sub1 as [|x sub1]; [eapply ok_leaf; eauto|]. destruct (Hsub x (or_introl eq_refl)) as (? & [] & _).
    - eapply ok_composite; eauto. intros x Hx. destruct (Hsub x Hx) as (x' & Hx' & Hp'). eauto.
    - constructor.
    - constructor. intros x Hx. destruct (Hsub x Hx) as (x' & Hx' & Hp'). eauto.
    - econstructor; eauto. intros x Hx. destruct (Hsub x Hx) as (x' & Hx' & Hp'). eauto.
  Qed.
  Lemma document_ok_less : document_ok S d' -> document_ok S d.
  Proof using T.
    intros (A & B). split.
    - intros o Ho. destruct (op_more o Ho) as (o' & Ho' & Hto). destruct (A o' Ho') as (t & Ht & Hs). exists t. rewrite (to_type _ _ Hto). split; auto.
      intros s Hi. destruct (to_sel _ _ Hto s Hi) as (s' & Hi' & P). eapply sel_ok_less; eauto.
    - intros f Hf. destruct (thinner_in _ _ _ (tr_frags _ _ T) f Hf) as (f' & Hf' & Htf). destruct (B f' Hf') as (t & Ht & Hc & Hs). exists t.
      rewrite (tf_cond _ _ Htf). split; auto. split; auto. intros s Hi. destruct (tf_sel _ _ Htf s Hi) as (s' & Hi' & P). eapply sel_ok_less; eauto.
  Qed.

  (** ** Response names *)
  Lemma root_response_more sels x : root_response d sels x -> forall sels', trims sels sels' -> root_response d' sels' x.
  Proof using T ND'.
    induction 1 as [sels al n args ds sub Hi|sels c ds sub x Hi _ IH|sels n ds f x Hi Hd _ IH]; intros sels' P.
    - destruct (P _ Hi) as (s' & Hi' & Hs). inversion Hs; subst. eapply rr_field; eauto.
    - destruct (P _ Hi) as (s' & Hi' & Hs). inversion Hs as [|? ? ? sub' Hsub|]; subst. eapply rr_inline; eauto.
    - destruct (P _ Hi) as (s' & Hi' & Hs). inversion Hs; subst. destruct (defines_more _ _ Hd) as (f' & Hd' & Hf). eapply rr_spread; eauto.
      apply IH. apply (tf_sel _ _ Hf).
  Qed.

  (** ** Merging *)
  Record trim_field (x x' : sfield) : Prop := {
    tx_alias : sf_alias x = sf_alias x'; tx_name : sf_name x = sf_name x'; tx_args : sf_args x = sf_args x';
    tx_sub : trims (sf_sub x) (sf_sub x'); tx_def : sf_def x = sf_def x'; tx_parent : sf_parent x = sf_parent x' }.
  Lemma collected_more t sels x : collected S d t sels x -> forall sels', trims sels sels' -> exists x', collected S d' t sels' x' /\ trim_field x x'.
  Proof using T ND'.
    induction 1 as [t sels al n args ds sub fd Hi Hf|t sels ds sub x Hi _ IH|t sels c ds sub t1 x Hi Ht _ IH|t sels n ds f t1 x Hi Hd Ht _ IH]; intros sels' P;
      destruct (P _ Hi) as (s' & Hi' & Hs).
    - inversion Hs as [? ? ? ? ? sub' _ Hsub| |]; subst. eexists. split; [eapply col_field; eauto|]. constructor; cbn; auto.
    - inversion Hs as [|? ? ? sub' Hsub|]; subst. destruct (IH sub' Hsub) as (x' & C & F). exists x'. split; auto. eapply col_inline; eauto.
    - inversion Hs as [|? ? ? sub' Hsub|]; subst. destruct (IH sub' Hsub) as (x' & C & F). exists x'. split; auto. eapply col_inline_on; eauto.
    - inversion Hs; subst. destruct (defines_more _ _ Hd) as (f' & Hd' & Hf). destruct (IH _ (tf_sel _ _ Hf)) as (x' & C & F). exists x'. split; auto.
      eapply col_spread; eauto. rewrite <- (tf_cond _ _ Hf). auto.
  Qed.
  Lemma below_more x y x' : below S d x y -> trim_field x x' -> exists y', below S d' x' y' /\ trim_field y y'.
  Proof using T ND'.
    intros (t & Ht & C) F. destruct (collected_more _ _ _ C _ (tx_sub _ _ F)) as (y' & C' & F'). exists y'. split; auto. exists t. rewrite <- (tx_def _ _ F). auto.
  Qed.
  Lemma key_more x x' : trim_field x x' -> sf_key x = sf_key x'.
  Proof using. intros F. unfold sf_key. rewrite (tx_alias _ _ F), (tx_name _ _ F). reflexivity. Qed.
  Lemma merged_more x y a b x' y' : merged S d x y a b -> trim_field x x' -> trim_field y y' ->
    exists a' b', merged S d' x' y' a' b' /\ trim_field a a' /\ trim_field b b'.
  Proof using T ND'.
    intros (Ha & Hb & E) Fx Fy.
    assert (K : forall c, below S d x c \/ below S d y c -> exists c', (below S d' x' c' \/ below S d' y' c') /\ trim_field c c').
    { intros c [H|H]; [destruct (below_more _ _ _ H Fx) as (c' & H' & F)|destruct (below_more _ _ _ H Fy) as (c' & H' & F)]; eauto. }
    destruct (K a Ha) as (a' & Ha' & Fa). destruct (K b Hb) as (b' & Hb' & Fb). exists a', b'. split; auto. split; auto. split; auto.
    rewrite <- (key_more _ _ Fa), <- (key_more _ _ Fb). auto.
  Qed.
  Lemma shapes_more x y : shapes_conflict S d x y -> forall x' y', trim_field x x' -> trim_field y y' -> shapes_conflict S d' x' y'.
  Proof using T ND'.
    induction 1 as [x y H|x y a b M _ IH]; intros x' y' Fx Fy.
    - apply sc_type. rewrite <- (tx_def _ _ Fx), <- (tx_def _ _ Fy). auto.
    - destruct (merged_more _ _ _ _ _ _ M Fx Fy) as (a' & b' & M' & Fa & Fb). eapply sc_below; eauto.
  Qed.
  Lemma meet_more x y x' y' : can_meet x y -> trim_field x x' -> trim_field y y' -> can_meet x' y'.
  Proof using. unfold can_meet. intros H Fx Fy. rewrite <- (tx_parent _ _ Fx), <- (tx_parent _ _ Fy). auto. Qed.
  Lemma conflict_more x y : selections_conflict S d can_meet x y -> forall x' y', trim_field x x' -> trim_field y y' -> selections_conflict S d' can_meet x' y'.
  Proof using T ND'.
    induction 1 as [x y M H|x y M H|x y a b M G _ IH]; intros x' y' Fx Fy.
    - apply fc_name; eauto using meet_more. rewrite <- (tx_name _ _ Fx), <- (tx_name _ _ Fy). auto.
    - apply fc_args; eauto using meet_more. rewrite <- (tx_args _ _ Fx), <- (tx_args _ _ Fy). auto.
    - destruct (merged_more _ _ _ _ _ _ G Fx Fy) as (a' & b' & M' & Fa & Fb). eapply fc_below; eauto using meet_more.
  Qed.
  Lemma can_merge_less : document_can_merge S d' can_meet -> document_can_merge S d can_meet.
  Proof using T ND' Hp Hq.
    intros H r t sels Hs x y Cx Cy E. destruct (set_more r t sels Hs) as (sels' & Hs' & P).
    destruct (collected_more _ _ _ Cx _ P) as (x' & Cx' & Fx). destruct (collected_more _ _ _ Cy _ P) as (y' & Cy' & Fy).
    destruct (H _ _ _ Hs' x' y' Cx' Cy') as (A & B); [rewrite <- (key_more _ _ Fx), <- (key_more _ _ Fy); auto|].
    split; intros K; [apply A|apply B]; eauto using shapes_more, conflict_more.
  Qed.
  Lemma spreads_simple_less : spreads_simple S d' -> spreads_simple S d.
  Proof using T ND' Hp Hq.
    intros H r t n ds f t1 Hs Hd Ht. destruct (sel_more _ _ _ Hs) as (s' & Hs' & P). inversion P; subst. destruct (defines_more _ _ Hd) as (f' & Hd' & Hf).
    rewrite (tf_cond _ _ Hf) in Ht. destruct (H _ _ _ _ _ _ Hs' Hd' Ht) as [->|(A & B & C)]; [left; auto|right]. split; auto. split.
    - intros s Hi. destruct (tf_sel _ _ Hf s Hi) as (s' & Hi' & Q). destruct (B s' Hi') as (al & m & args & ds' & sub & ->). inversion Q; subst. repeat eexists.
    - intros al m args ds' sub fd Hi Hfd. destruct (tf_sel _ _ Hf _ Hi) as (s' & Hi' & Q). inversion Q; subst. eapply C; eauto.
  Qed.

  (** ** Fragments and variables *)
  Lemma occurs_more s sels : occurs s sels -> forall sels', trims sels sels' -> exists s', occurs s' sels' /\ trim s s'.
  Proof using.
    induction 1 as [sels Hi|sels al n args ds sub Hi _ IH|sels c ds sub Hi _ IH]; intros sels' P; destruct (P _ Hi) as (s' & Hi' & Hs).
    - exists s'. split; auto. constructor; auto.
    - inversion Hs as [? ? ? ? ? sub' _ Hsub| |]; subst. destruct (IH sub' Hsub) as (x & O & Hx). exists x. split; auto. eapply occ_field; eauto.
    - inversion Hs as [|? ? ? sub' Hsub|]; subst. destruct (IH sub' Hsub) as (x & O & Hx). exists x. split; auto. eapply occ_inline; eauto.
  Qed.
  Lemma occurs_in_more s r : occurs_in d s r -> exists s', occurs_in d' s' (from r) /\ trim s s'.
  Proof using Hp Hq.
    destruct 1 as [i o E O|i f E O].
    - destruct (Hp i o E) as (o' & E' & Ho). destruct (occurs_more _ _ O _ (to_sel _ _ Ho)) as (s' & O' & P). exists s'. split; auto. cbn. econstructor; eauto.
    - destruct (Hq i f E) as (f' & E' & Hf). destruct (occurs_more _ _ O _ (tf_sel _ _ Hf)) as (s' & O' & P). exists s'. split; auto. cbn. econstructor; eauto.
  Qed.
  Lemma spread_in_more n s : spread_in n s -> forall s', trim s s' -> spread_in n s'.
  Proof using.
    induction 1 as [ds|al m args ds sub s Hi _ IH|c ds sub s Hi _ IH]; intros s' P; inversion P as [? ? ? ? ? sub' _ Hsub|? ? ? sub' Hsub|]; subst; [constructor| |];
      destruct (Hsub _ Hi) as (x & Hx & Px); econstructor; eauto.
  Qed.
  Lemma fragment_uses_more a b : fragment_uses d a b -> fragment_uses d' a b.
  Proof using T ND'.
    intros (f & Hd & s & Hi & Hs). destruct (defines_more _ _ Hd) as (f' & Hd' & Hf). exists f'. split; auto. destruct (tf_sel _ _ Hf _ Hi) as (s' & Hi' & P).
    exists s'. split; auto. eapply spread_in_more; eauto.
  Qed.
  Lemma uses_plus_more a b : plus (fragment_uses d) a b -> plus (fragment_uses d') a b.
  Proof using T ND'. induction 1 as [a b H|a b c H _ IH]; [constructor 1|econstructor 2]; eauto using fragment_uses_more. Qed.
  Lemma denotes_more n j : denotes d n j -> denotes d' n (q j).
  Proof using ND' Hq.
    intros (f & E & En & _). destruct (Hq j f E) as (f' & E' & Hf). exists f'. split; auto. split; [rewrite <- (tf_name _ _ Hf); auto|].
    intros k g Ek Eg. assert (k = q j); [|lia]. rewrite NoDup_nth_error in ND'. apply ND'.
    - apply nth_error_Some. rewrite (map_nth_error fr_name _ _ Ek). discriminate.
    - rewrite (map_nth_error fr_name _ _ Ek), (map_nth_error fr_name _ _ E'), Eg, <- En, (tf_name _ _ Hf). reflexivity.
  Qed.
  Lemma refers_more r r1 : star (refers S d) r r1 -> star (refers S d') (from r) (from r1).
  Proof using ND' Hp Hq.
    induction 1 as [r|r r1 r2 H _ IH]; [constructor|]. econstructor 2; [|exact IH]. destruct H as [r t n ds j Hs Hd]. destruct (sel_more _ _ _ Hs) as (s' & Hs' & P).
    inversion P; subst. cbn. econstructor; eauto using denotes_more.
  Qed.
  Lemma spreads_text_more r r1 : star (spreads_text d) r r1 -> star (spreads_text d') (from r) (from r1).
  Proof using ND' Hp Hq.
    induction 1 as [r|r r1 r2 H _ IH]; [constructor|]. econstructor 2; [|exact IH]. destruct H as [r n ds j Ho Hd]. destruct (occurs_in_more _ _ Ho) as (s' & Ho' & P).
    inversion P; subst. cbn. econstructor; eauto using denotes_more.
  Qed.
  Lemma written_more x r : written_in d x r -> written_in d' x (from r).
  Proof using Hp Hq.
    destruct 1 as [r s Ho Hv|i o E Hv|i f E Hv].
    - destruct (occurs_in_more _ _ Ho) as (s' & Ho' & P). eapply wr_sel; eauto. inversion P; subst; auto.
    - destruct (Hp i o E) as (o' & E' & Hto). cbn. eapply wr_op; eauto. rewrite <- (to_dirs _ _ Hto). auto.
    - destruct (Hq i f E) as (f' & E' & Hf). cbn. eapply wr_frag; eauto. rewrite <- (tf_dirs _ _ Hf). auto.
  Qed.
  Lemma writes_more i x : operation_writes d i x -> operation_writes d' (p i) x.
  Proof using ND' Hp Hq. intros (r & H & W). exists (from r). split; [apply (spreads_text_more _ _ H)|apply written_more; auto]. Qed.
  Lemma used_as_more r x t df : used_as S d r x t df -> used_as S d' (from r) x t df.
  Proof using Hp Hq. intros (a & i & H & L). exists a, i. split; auto using argument_more. Qed.
End Trim.

Section Whole.
  Variable S : schema.
  Variable accepts : name -> value -> Prop.
  Variable str_enum one_of : bool.
  Variables d d' : document.
  Lemma trimmed_valid : valid_document S accepts str_enum one_of d' -> trimmed d d' -> nothing_loose d -> valid_document S accepts str_enum one_of d.
  Proof.
    intros V T L. destruct (thinner_positions _ _ _ (tr_ops _ _ T)) as (p & Mp & Hp). destruct (thinner_positions _ _ _ (tr_frags _ _ T)) as (q & _ & Hq).
    pose proof (vd_fragment_names _ _ _ _ _ V) as ND'.
    assert (Inj : forall i j, p i = p j -> i = j).
    { intros i j E. destruct (Nat.lt_total i j) as [H|[H|H]]; auto; specialize (Mp _ _ H); lia. }
    assert (OM : forall o, In o (doc_ops d) -> exists o', In o' (doc_ops d') /\ trim_operation o o') by (apply (thinner_in _ _ _ (tr_ops _ _ T))).
    constructor.
    - intros i j o1 o2 n E1 E2 N1 N2. destruct (Hp _ _ E1) as (o1' & E1' & T1). destruct (Hp _ _ E2) as (o2' & E2' & T2). apply Inj.
      eapply (vd_operation_names _ _ _ _ _ V); eauto; [rewrite <- (to_name _ _ T1)|rewrite <- (to_name _ _ T2)]; eauto.
    - intros o Ho En. destruct (OM o Ho) as (o' & Ho' & Hto). rewrite (to_name _ _ Hto) in En. pose proof (vd_lone_anonymous _ _ _ _ _ V o' Ho' En) as E.
      destruct T as [TO _]. rewrite E in TO. inversion TO as [l E1 E2|a b l l' _ TO' E1 E2|l b l' TO' E1 E2]; subst.
      + rewrite <- E1 in Ho. destruct Ho.
      + inversion TO' as [l1 E3 E4| |]. subst. rewrite <- E1 in Ho. destruct Ho as [->|[]]. reflexivity.
      + inversion TO' as [l1 E3 E4| |]. subst. rewrite <- E3 in Ho. destruct Ho.
    - intros o Ho Et. destruct (OM o Ho) as (o' & Ho' & Hto). rewrite (to_type _ _ Hto) in Et. destruct (vd_single_root _ _ _ _ _ V o' Ho' Et) as (x & Hx).
      rewrite <- (to_type _ _ Hto) in Et. destruct (nl_roots _ L o Ho Et) as (y & Hy).
      assert (K : forall z, root_response d (op_sel o) z -> z = x).
      { intros z Hz. apply Hx. eapply root_response_more; eauto. apply (to_sel _ _ Hto). }
      exists x. intros z. split; [apply K|]. intros ->. rewrite <- (K y Hy). auto.
    - eapply document_ok_less; eauto. apply (vd_selections _ _ _ _ _ V).
    - eapply can_merge_less; eauto. apply (vd_merge _ _ _ _ _ V).
    - intros w args defs H. apply (vd_argument_names _ _ _ _ _ V w). eapply args_more; eauto.
    - intros w args defs H. apply (vd_argument_unique _ _ _ _ _ V w args defs). eapply args_more; eauto.
    - intros w args defs H. apply (vd_argument_required _ _ _ _ _ V w). eapply args_more; eauto.
    - eapply names_once; eauto.
    - apply (nl_used _ L).
    - apply (nl_targets _ L).
    - intros n H. apply (vd_fragment_cycles _ _ _ _ _ V n). eapply uses_plus_more; eauto.
    - intros r t s c tc Hs Hc Ht. destruct (sel_more S d d' p q Hp Hq _ _ _ Hs) as (s' & Hs' & P). eapply (vd_possible _ _ _ _ _ V); eauto.
      destruct Hc as [(n & ds & f & -> & Hd & <-)|(ds & sub & ->)]; inversion P; subst; [left|right; eauto].
      destruct (defines_more d d' T ND' _ _ Hd) as (f' & Hd' & Hf). exists n, ds, f'. split; auto. split; auto. symmetry. apply (tf_cond _ _ Hf).
    - intros r a i H. eapply (vd_values _ _ _ _ _ V). eapply argument_more; eauto.
    - intros a i H. eapply (vd_const_values _ _ _ _ _ V). eapply const_argument_more; eauto.
    - intros o v x Ho Hv. destruct (OM o Ho) as (o' & Ho' & Hto). rewrite (to_vars _ _ Hto) in Hv. eapply (vd_defaults _ _ _ _ _ V); eauto.
    - intros x loc H. eapply (vd_directive_defined _ _ _ _ _ V). eapply directive_more; eauto.
    - intros x loc dd H. eapply (vd_directive_places _ _ _ _ _ V). eapply directive_more; eauto.
    - intros ds [(r & loc & H)|H]; apply (vd_directive_unique _ _ _ _ _ V); [left|right].
      + exists (from p q r), loc. eapply directives_more; eauto.
      + eapply const_directives_more; eauto.
    - intros o Ho. destruct (OM o Ho) as (o' & Ho' & Hto). rewrite (to_vars _ _ Hto). apply (vd_variable_names _ _ _ _ _ V); auto.
    - intros o v Ho Hv. destruct (OM o Ho) as (o' & Ho' & Hto). rewrite (to_vars _ _ Hto) in Hv. eapply (vd_variable_types _ _ _ _ _ V); eauto.
    - intros i o x E W. destruct (Hp i o E) as (o' & E' & Hto). rewrite (to_vars _ _ Hto). eapply (vd_variable_defined _ _ _ _ _ V); eauto. eapply writes_more; eauto.
    - apply (nl_variables _ L).
    - intros i o r v t df E H Hv U. destruct (Hp i o E) as (o' & E' & Hto). rewrite (to_vars _ _ Hto) in Hv.
      eapply (vd_variable_usages _ _ _ _ _ V); eauto; [change (ROp (p i)) with (from p q (ROp i)); eapply refers_more; eauto|eapply used_as_more; eauto].
  Qed.
End Whole.
