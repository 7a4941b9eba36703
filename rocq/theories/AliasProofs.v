(** Other names in the response: lemmas for C93. *)
From Verif Require Import Base Ast CoercionSpec Graph Doc DocSpec DocRules DocRulesSpec FragmentsSpec FragmentCyclesProofs DocVariablesSpec ValueEqSpec
  MergingSpec ValiditySpec TrimProofs RenameProofs AliasSpec.

Section Aliases.
  Variable S : schema.
  Variable theta : name -> name.
  Variables d d' : document.
  Hypothesis N : realiased theta d d'.
  Hypothesis ND' : NoDup (map fr_name (doc_frags d')).
  Notation lik := (alike theta).
  Notation like_op := (alike_operation theta).
  Notation like_fr := (alike_fragment theta).
  Definition one_way (sels sels' : list selection) : Prop := forall s, In s sels -> exists s', In s' sels' /\ lik s s'.
  Lemma Hp : forall i o, nth_error (doc_ops d) i = Some o -> exists o', nth_error (doc_ops d') i = Some o' /\ like_op o o'.
  Proof using N. apply pairs_nth, (ra_ops _ _ _ N). Qed.
  Lemma Hq : forall i f, nth_error (doc_frags d) i = Some f -> exists f', nth_error (doc_frags d') i = Some f' /\ like_fr f f'.
  Proof using N. apply pairs_nth, (ra_frags _ _ _ N). Qed.
  Lemma names_new : map fr_name (doc_frags d') = map fr_name (doc_frags d).
  Proof using N. destruct N as [_ F]. clear N ND'. induction F as [|f f' l l' H _ IH]; cbn; auto. rewrite (af_name _ _ _ H), IH. auto. Qed.
  Lemma names_once : NoDup (map fr_name (doc_frags d)).
  Proof using N ND'. rewrite names_new in ND'. auto. Qed.
  Lemma op_more o : In o (doc_ops d) -> exists o', In o' (doc_ops d') /\ like_op o o'.
  Proof. intros H. apply In_nth_error in H as (i & E). destruct (Hp i o E) as (o' & E' & K). exists o'. split; auto. eapply nth_error_In; eauto. Qed.
  Lemma frag_more f : In f (doc_frags d) -> exists f', In f' (doc_frags d') /\ like_fr f f'.
  Proof. intros H. apply In_nth_error in H as (i & E). destruct (Hq i f E) as (f' & E' & K). exists f'. split; auto. eapply nth_error_In; eauto. Qed.
  Lemma defines_more n f : defines d n f -> exists f', defines d' n f' /\ like_fr f f'.
  Proof.
    intros H. apply (defines_in_iff d n f names_once) in H as (Hi & E). destruct (frag_more f Hi) as (f' & Hi' & Hf).
    exists f'. split; auto. apply (defines_in_iff d' n f' ND'). split; auto. rewrite (af_name _ _ _ Hf), E. auto.
  Qed.
  Lemma within_more t sels t1 sels1 : within S t sels t1 sels1 -> forall sels', one_way sels sels' ->
    exists sels1', within S t sels' t1 sels1' /\ one_way sels1 sels1'.
  Proof.
    induction 1 as [t sels|t sels al n args ds sub fd t1 t' sels1 Hi Hn Hf Ht _ IH|t sels ds sub t' sels1 Hi _ IH|t sels c ds sub t1 t' sels1 Hi Ht _ IH];
      intros sels' P.
    - exists sels'. split; auto. constructor.
    - destruct (P _ Hi) as (s' & Hi' & Hs). inversion Hs as [? ? ? ? ? sub' al1 Ea _ Hsub| |]; subst. destruct (IH sub' Hsub) as (x & W & Px). exists x. split; auto.
      eapply within_field; eauto. intros ->. destruct sub as [|s sub]; [auto|]. destruct (Hsub s (or_introl eq_refl)) as (? & [] & _).
    - destruct (P _ Hi) as (s' & Hi' & Hs). inversion Hs as [|? ? ? sub' Hsub|]; subst. destruct (IH sub' Hsub) as (x & W & Px). exists x. split; auto.
      eapply within_inline; eauto.
    - destruct (P _ Hi) as (s' & Hi' & Hs). inversion Hs as [|? ? ? sub' Hsub|]; subst. destruct (IH sub' Hsub) as (x & W & Px). exists x. split; auto.
      eapply within_inline_on; eauto.
  Qed.
  Lemma set_more r t sels : set_at S d r t sels -> exists sels', set_at S d' r t sels' /\ one_way sels sels'.
  Proof.
    intros (t0 & sels0 & H & W). destruct H as [i o t0 E Ht|i f t0 E Ht].
    - destruct (Hp i o E) as (o' & E' & Ho). destruct (within_more _ _ _ _ W _ (proj1 (ao_sel _ _ _ Ho))) as (x & W' & P). exists x. split; auto.
      exists t0, (op_sel o'). split; auto. cbn. constructor; auto. rewrite <- (ao_type _ _ _ Ho). auto.
    - destruct (Hq i f E) as (f' & E' & Hf). destruct (within_more _ _ _ _ W _ (proj1 (af_sel _ _ _ Hf))) as (x & W' & P). exists x. split; auto.
      exists t0, (fr_sel f'). split; auto. cbn. constructor; auto. rewrite <- (af_cond _ _ _ Hf). auto.
  Qed.
  Lemma sel_more r t s : sel_at S d r t s -> exists s', sel_at S d' r t s' /\ lik s s'.
  Proof.
    intros (sels & H & Hi). destruct (set_more r t sels H) as (sels' & H' & P). destruct (P _ Hi) as (s' & Hi' & Hs). exists s'. split; auto. exists sels'. auto.
  Qed.
  Lemma directives_more r ds loc : directives_at S d r ds loc -> directives_at S d' r ds loc.
  Proof.
    destruct 1 as [i o E Ne|i f E Ne|r t al n args ds sub fd H Hf Ne|r t n ds H Ne|r t c ds sub H Ne].
    - destruct (Hp i o E) as (o' & E' & Ho). rewrite (ao_dirs _ _ _ Ho) in *. rewrite (ao_type _ _ _ Ho). cbn. apply (dirs_op S d' i o'); auto.
    - destruct (Hq i f E) as (f' & E' & Hf). rewrite (af_dirs _ _ _ Hf) in *. cbn. apply (dirs_frag S d' i f'); auto.
    - destruct (sel_more _ _ _ H) as (s' & H' & Hs). inversion Hs; subst. eapply dirs_field; eauto.
    - destruct (sel_more _ _ _ H) as (s' & H' & Hs). inversion Hs; subst. eapply dirs_spread; eauto.
    - destruct (sel_more _ _ _ H) as (s' & H' & Hs). inversion Hs; subst. eapply dirs_inline; eauto.
  Qed.
  Lemma const_directives_more ds : const_directives_at d ds -> const_directives_at d' ds.
  Proof.
    intros (Ne & o & v & Ho & Hv & E). destruct (op_more o Ho) as (o' & Ho' & Hto). split; auto. exists o', v. rewrite <- (ao_vars _ _ _ Hto). auto.
  Qed.
  Lemma argument_more r a i : argument_at S d r a i -> argument_at S d' r a i.
  Proof.
    destruct 1 as [r t al n args ds sub fd a i H Hf Ha Hi|r ds loc x dd a i H Hx Hd Ha Hi].
    - destruct (sel_more _ _ _ H) as (s' & H' & Hs). inversion Hs; subst. eapply arg_field; eauto.
    - eapply arg_directive; eauto using directives_more.
  Qed.
  Lemma const_argument_more a i : const_argument_at S d a i -> const_argument_at S d' a i.
  Proof. intros (ds & x & dd & H & K). exists ds, x, dd. split; auto using const_directives_more. Qed.
  Lemma args_more w args defs : args_at S d w args defs -> args_at S d' w args defs.
  Proof.
    destruct 1 as [r t al n args ds sub fd H Hf|r ds loc x dd H Hx Hd|ds x dd H Hx Hd].
    - destruct (sel_more _ _ _ H) as (s' & H' & Hs). inversion Hs; subst. eapply args_field; eauto.
    - eapply args_directive; eauto using directives_more.
    - eapply args_const_directive; eauto using const_directives_more.
  Qed.
  Lemma directive_more x loc : directive_at S d x loc -> directive_at S d' x loc.
  Proof.
    destruct 1 as [r ds loc x H Hx|ds x H Hx]; [eapply dir_var; eauto using directives_more|eapply dir_const; eauto using const_directives_more].
  Qed.

  (** ** Selections *)
  Lemma sel_ok_less t s' : sel_ok S t s' -> forall s, lik s s' -> sel_ok S t s.
  Proof.
    induction 1 as [t al n args ds fd ft Hf Ht Hl|t al n args ds sub fd ft Hf Ht Hl Hn _ IH|t n ds|t ds sub _ IH|t c ds sub ft Ht Hc _ IH]; intros s Hs;
      inversion Hs as [? ? ? ? sub1 ? al1 Ea He Hsub|? ? sub1 ? Hsub|]; subst.
    - destruct sub1 as [|x sub1]; [eapply ok_leaf; eauto|]. destruct (Hsub x (or_introl eq_refl)) as (? & [] & _).
    - eapply ok_composite; eauto; [intros ->; destruct sub as [|y sub]; [auto|]; destruct (He y (or_introl eq_refl)) as (? & [] & _)|]. intros x Hx. destruct (Hsub x Hx) as (x' & Hx' & Hp'). eauto.
    - constructor.
    - constructor. intros x Hx. destruct (Hsub x Hx) as (x' & Hx' & Hp'). eauto.
    - econstructor; eauto. intros x Hx. destruct (Hsub x Hx) as (x' & Hx' & Hp'). eauto.
  Qed.
  Lemma document_ok_less : document_ok S d' -> document_ok S d.
  Proof.
    intros (A & B). split.
    - intros o Ho. destruct (op_more o Ho) as (o' & Ho' & Hto). destruct (A o' Ho') as (t & Ht & Hs). exists t. rewrite (ao_type _ _ _ Hto). split; auto.
      intros s Hi. destruct (proj1 (ao_sel _ _ _ Hto) s Hi) as (s' & Hi' & P). eapply sel_ok_less; eauto.
    - intros f Hf. destruct (frag_more f Hf) as (f' & Hf' & Htf). destruct (B f' Hf') as (t & Ht & Hc & Hs). exists t.
      rewrite (af_cond _ _ _ Htf). split; auto. split; auto. intros s Hi. destruct (proj1 (af_sel _ _ _ Htf) s Hi) as (s' & Hi' & P). eapply sel_ok_less; eauto.
  Qed.

  (** ** Response names *)
  Lemma root_response_more sels x : root_response d sels x -> forall sels', one_way sels sels' -> root_response d' sels' (theta x).
  Proof.
    induction 1 as [sels al n args ds sub Hi|sels c ds sub x Hi _ IH|sels n ds f x Hi Hd _ IH]; intros sels' P.
    - destruct (P _ Hi) as (s' & Hi' & Hs). inversion Hs as [? ? ? ? ? ? al1 Ea| |]; subst. rewrite <- Ea. eapply rr_field; eauto.
    - destruct (P _ Hi) as (s' & Hi' & Hs). inversion Hs as [|? ? ? sub' Hsub|]; subst. eapply rr_inline; eauto.
    - destruct (P _ Hi) as (s' & Hi' & Hs). inversion Hs; subst. destruct (defines_more _ _ Hd) as (f' & Hd' & Hf). eapply rr_spread; eauto.
      apply IH. exact (proj1 (af_sel _ _ _ Hf)).
  Qed.

  (** ** Merging *)
  Record same_field (x x' : sfield) : Prop := {
    tx_alias : sf_key x' = theta (sf_key x); tx_name : sf_name x = sf_name x'; tx_args : sf_args x = sf_args x';
    tx_sub : one_way (sf_sub x) (sf_sub x'); tx_def : sf_def x = sf_def x'; tx_parent : sf_parent x = sf_parent x' }.
  Lemma collected_more t sels x : collected S d t sels x -> forall sels', one_way sels sels' -> exists x', collected S d' t sels' x' /\ same_field x x'.
  Proof.
    induction 1 as [t sels al n args ds sub fd Hi Hf|t sels ds sub x Hi _ IH|t sels c ds sub t1 x Hi Ht _ IH|t sels n ds f t1 x Hi Hd Ht _ IH]; intros sels' P;
      destruct (P _ Hi) as (s' & Hi' & Hs).
    - inversion Hs as [? ? ? ? ? sub' al1 Ea _ Hsub| |]; subst. eexists. split; [eapply col_field; eauto|]. constructor; cbn; auto.
    - inversion Hs as [|? ? ? sub' Hsub|]; subst. destruct (IH sub' Hsub) as (x' & C & F). exists x'. split; auto. eapply col_inline; eauto.
    - inversion Hs as [|? ? ? sub' Hsub|]; subst. destruct (IH sub' Hsub) as (x' & C & F). exists x'. split; auto. eapply col_inline_on; eauto.
    - inversion Hs; subst. destruct (defines_more _ _ Hd) as (f' & Hd' & Hf). destruct (IH _ (proj1 (af_sel _ _ _ Hf))) as (x' & C & F). exists x'. split; auto.
      eapply col_spread; eauto. rewrite <- (af_cond _ _ _ Hf). auto.
  Qed.
  Lemma below_more x y x' : below S d x y -> same_field x x' -> exists y', below S d' x' y' /\ same_field y y'.
  Proof.
    intros (t & Ht & C) F. destruct (collected_more _ _ _ C _ (tx_sub _ _ F)) as (y' & C' & F'). exists y'. split; auto. exists t. rewrite <- (tx_def _ _ F). auto.
  Qed.
  Lemma key_more x x' : same_field x x' -> sf_key x' = theta (sf_key x).
  Proof. intros F. apply (tx_alias _ _ F). Qed.
  Lemma merged_more x y a b x' y' : merged S d x y a b -> same_field x x' -> same_field y y' ->
    exists a' b', merged S d' x' y' a' b' /\ same_field a a' /\ same_field b b'.
  Proof.
    intros (Ha & Hb & E) Fx Fy.
    assert (K : forall c, below S d x c \/ below S d y c -> exists c', (below S d' x' c' \/ below S d' y' c') /\ same_field c c').
    { intros c [H|H]; [destruct (below_more _ _ _ H Fx) as (c' & H' & F)|destruct (below_more _ _ _ H Fy) as (c' & H' & F)]; eauto. }
    destruct (K a Ha) as (a' & Ha' & Fa). destruct (K b Hb) as (b' & Hb' & Fb). exists a', b'. split; auto. split; auto. split; auto.
    rewrite (key_more _ _ Fa), (key_more _ _ Fb), E. auto.
  Qed.
  Lemma shapes_more x y : shapes_conflict S d x y -> forall x' y', same_field x x' -> same_field y y' -> shapes_conflict S d' x' y'.
  Proof.
    induction 1 as [x y H|x y a b M _ IH]; intros x' y' Fx Fy.
    - apply sc_type. rewrite <- (tx_def _ _ Fx), <- (tx_def _ _ Fy). auto.
    - destruct (merged_more _ _ _ _ _ _ M Fx Fy) as (a' & b' & M' & Fa & Fb). eapply sc_below; eauto.
  Qed.
  Lemma meet_more x y x' y' : can_meet x y -> same_field x x' -> same_field y y' -> can_meet x' y'.
  Proof. unfold can_meet. intros H Fx Fy. rewrite <- (tx_parent _ _ Fx), <- (tx_parent _ _ Fy). auto. Qed.
  Lemma conflict_more x y : selections_conflict S d can_meet x y -> forall x' y', same_field x x' -> same_field y y' -> selections_conflict S d' can_meet x' y'.
  Proof.
    induction 1 as [x y M H|x y M H|x y a b M G _ IH]; intros x' y' Fx Fy.
    - apply fc_name; eauto using meet_more. rewrite <- (tx_name _ _ Fx), <- (tx_name _ _ Fy). auto.
    - apply fc_args; eauto using meet_more. rewrite <- (tx_args _ _ Fx), <- (tx_args _ _ Fy). auto.
    - destruct (merged_more _ _ _ _ _ _ G Fx Fy) as (a' & b' & M' & Fa & Fb). eapply fc_below; eauto using meet_more.
  Qed.
  Lemma can_merge_less : document_can_merge S d' can_meet -> document_can_merge S d can_meet.
  Proof.
    intros H r t sels Hs x y Cx Cy E. destruct (set_more r t sels Hs) as (sels' & Hs' & P).
    destruct (collected_more _ _ _ Cx _ P) as (x' & Cx' & Fx). destruct (collected_more _ _ _ Cy _ P) as (y' & Cy' & Fy).
    destruct (H _ _ _ Hs' x' y' Cx' Cy') as (A & B); [rewrite (key_more _ _ Fx), (key_more _ _ Fy), E; auto|].
    split; intros K; [apply A|apply B]; eauto using shapes_more, conflict_more.
  Qed.
  (** ** Fragments and variables *)
  Lemma occurs_more s sels : occurs s sels -> forall sels', one_way sels sels' -> exists s', occurs s' sels' /\ lik s s'.
  Proof.
    induction 1 as [sels Hi|sels al n args ds sub Hi _ IH|sels c ds sub Hi _ IH]; intros sels' P; destruct (P _ Hi) as (s' & Hi' & Hs).
    - exists s'. split; auto. constructor; auto.
    - inversion Hs as [? ? ? ? ? sub' al1 Ea _ Hsub| |]; subst. destruct (IH sub' Hsub) as (x & O & Hx). exists x. split; auto. eapply occ_field; eauto.
    - inversion Hs as [|? ? ? sub' Hsub|]; subst. destruct (IH sub' Hsub) as (x & O & Hx). exists x. split; auto. eapply occ_inline; eauto.
  Qed.
  Lemma occurs_in_more s r : occurs_in d s r -> exists s', occurs_in d' s' r /\ lik s s'.
  Proof.
    destruct 1 as [i o E O|i f E O].
    - destruct (Hp i o E) as (o' & E' & Ho). destruct (occurs_more _ _ O _ (proj1 (ao_sel _ _ _ Ho))) as (s' & O' & P). exists s'. split; auto. cbn. econstructor; eauto.
    - destruct (Hq i f E) as (f' & E' & Hf). destruct (occurs_more _ _ O _ (proj1 (af_sel _ _ _ Hf))) as (s' & O' & P). exists s'. split; auto. cbn. econstructor; eauto.
  Qed.
  Lemma spread_in_more n s : spread_in n s -> forall s', lik s s' -> spread_in n s'.
  Proof.
    induction 1 as [ds|al m args ds sub s Hi _ IH|c ds sub s Hi _ IH]; intros s' P; inversion P as [? ? ? ? ? sub' al1 Ea _ Hsub|? ? ? sub' Hsub|]; subst; [constructor| |];
      destruct (Hsub _ Hi) as (x & Hx & Px); econstructor; eauto.
  Qed.
  Lemma fragment_uses_more a b : fragment_uses d a b -> fragment_uses d' a b.
  Proof.
    intros (f & Hd & s & Hi & Hs). destruct (defines_more _ _ Hd) as (f' & Hd' & Hf). exists f'. split; auto. destruct (proj1 (af_sel _ _ _ Hf) _ Hi) as (s' & Hi' & P).
    exists s'. split; auto. eapply spread_in_more; eauto.
  Qed.
  Lemma uses_plus_more a b : plus (fragment_uses d) a b -> plus (fragment_uses d') a b.
  Proof. induction 1 as [a b H|a b c H _ IH]; [constructor 1|econstructor 2]; eauto using fragment_uses_more. Qed.
  Lemma denotes_more n j : denotes d n j -> denotes d' n j.
  Proof.
    intros (f & E & En & _). destruct (Hq j f E) as (f' & E' & Hf). exists f'. split; auto. split; [rewrite (af_name _ _ _ Hf), En; auto|].
    intros k g Ek Eg. assert (k = j); [|lia]. rewrite NoDup_nth_error in ND'. apply ND'.
    - apply nth_error_Some. rewrite (map_nth_error fr_name _ _ Ek). discriminate.
    - rewrite (map_nth_error fr_name _ _ Ek), (map_nth_error fr_name _ _ E'), Eg, (af_name _ _ _ Hf), En. reflexivity.
  Qed.
  Lemma refers_more r r1 : star (refers S d) r r1 -> star (refers S d') r r1.
  Proof.
    induction 1 as [r|r r1 r2 H _ IH]; [constructor|]. econstructor 2; [|exact IH]. destruct H as [r t n ds j Hs Hd]. destruct (sel_more _ _ _ Hs) as (s' & Hs' & P).
    inversion P; subst. cbn. econstructor; eauto using denotes_more.
  Qed.
  Lemma spreads_text_more r r1 : star (spreads_text d) r r1 -> star (spreads_text d') r r1.
  Proof.
    induction 1 as [r|r r1 r2 H _ IH]; [constructor|]. econstructor 2; [|exact IH]. destruct H as [r n ds j Ho Hd]. destruct (occurs_in_more _ _ Ho) as (s' & Ho' & P).
    inversion P; subst. cbn. econstructor; eauto using denotes_more.
  Qed.
  Lemma written_more x r : written_in d x r -> written_in d' x r.
  Proof.
    destruct 1 as [r s Ho Hv|i o E Hv|i f E Hv].
    - destruct (occurs_in_more _ _ Ho) as (s' & Ho' & P). eapply wr_sel; eauto. inversion P; subst; auto.
    - destruct (Hp i o E) as (o' & E' & Hto). cbn. eapply wr_op; eauto. rewrite <- (ao_dirs _ _ _ Hto). auto.
    - destruct (Hq i f E) as (f' & E' & Hf). cbn. eapply wr_frag; eauto. rewrite <- (af_dirs _ _ _ Hf). auto.
  Qed.
  Lemma writes_more i x : operation_writes d i x -> operation_writes d' i x.
  Proof. intros (r & H & W). exists r. split; [apply (spreads_text_more _ _ H)|apply written_more; auto]. Qed.
  Lemma used_as_more r x t df : used_as S d r x t df -> used_as S d' r x t df.
  Proof. intros (a & i & H & L). exists a, i. split; auto using argument_more. Qed.
End Aliases.

(** * Back to the old names *)
Lemma alike_back theta theta' : (forall n, theta' (theta n) = n) -> forall s s', alike theta s s' -> alike theta' s' s.
Proof.
  intros I. induction s as [al n args ds sub IH|n ds|c ds sub IH] using selection_ind'; intros s' H; inversion H as [? ? ? ? ? sub' al1 Ea A B|? ? ? sub' A B|]; subst.
  - rewrite Forall_forall in IH. constructor; [rewrite Ea, I; auto|intros x Hx; destruct (B x Hx) as (y & Hy & L)|intros x Hx; destruct (A x Hx) as (y & Hy & L)]; exists y; split; auto.
  - constructor.
  - rewrite Forall_forall in IH. constructor; intros x Hx; [destruct (B x Hx) as (y & Hy & L)|destruct (A x Hx) as (y & Hy & L)]; exists y; split; auto.
Qed.
Lemma alikes_back theta theta' : (forall n, theta' (theta n) = n) -> forall l l', alikes theta l l' -> alikes theta' l' l.
Proof.
  intros I l l' (A & B). split; intros x Hx; [destruct (B x Hx) as (y & Hy & L)|destruct (A x Hx) as (y & Hy & L)]; exists y; split; auto; eapply alike_back; eauto.
Qed.
Lemma realiased_back theta theta' d d' : (forall n, theta' (theta n) = n) -> realiased theta d d' -> realiased theta' d' d.
Proof.
  intros I [A B]. apply pairs_flip in A, B. split; [eapply pairs_impl; [|exact A]|eapply pairs_impl; [|exact B]]; cbn.
  - intros o' o [E1 E2 E3 E4 E5]. split; auto. eapply alikes_back; eauto.
  - intros f' f [E1 E2 E3 E4]. split; auto. eapply alikes_back; eauto.
Qed.

Section Whole.
  Variable S : schema.
  Variable accepts : name -> value -> Prop.
  Variable str_enum one_of : bool.
  Variables theta theta' : name -> name.
  Hypothesis I : forall n, theta' (theta n) = n.
  Hypothesis I' : forall n, theta (theta' n) = n.
  Variables d d' : document.
  Hypothesis R : realiased theta d d'.
  Lemma realiased_valid : valid_document S accepts str_enum one_of d' -> valid_document S accepts str_enum one_of d.
  Proof.
    intros V. pose proof (vd_fragment_names _ _ _ _ _ V) as ND'. pose proof (realiased_back _ theta' _ _ I R) as R'.
    pose proof (names_once theta d d' R ND') as ND. pose proof (names_new theta d d' R) as NN.
    assert (OM : forall o, In o (doc_ops d) -> exists o', In o' (doc_ops d') /\ alike_operation theta o o') by (apply (op_more theta d d' R)).
    constructor; auto.
    - intros i j o1 o2 n E1 E2 N1 N2. destruct (Hp theta d d' R _ _ E1) as (o1' & E1' & T1). destruct (Hp theta d d' R _ _ E2) as (o2' & E2' & T2).
      apply (vd_operation_names _ _ _ _ _ V i j o1' o2' n); auto; [rewrite (ao_name _ _ _ T1), N1|rewrite (ao_name _ _ _ T2), N2]; auto.
    - intros o Ho En. destruct (OM o Ho) as (o' & Ho' & Hto). assert (En' : op_name o' = None) by (rewrite (ao_name _ _ _ Hto), En; auto).
      pose proof (vd_lone_anonymous _ _ _ _ _ V o' Ho' En') as E. pose proof (ra_ops _ _ _ R) as TO. rewrite E in TO.
      inversion TO as [|a b l l' _ TO' E1 E2]; subst. inversion TO'; subst. rewrite <- E1 in Ho. destruct Ho as [->|[]]. reflexivity.
    - intros o Ho Et. destruct (OM o Ho) as (o' & Ho' & Hto). rewrite (ao_type _ _ _ Hto) in Et. destruct (vd_single_root _ _ _ _ _ V o' Ho' Et) as (x & Hx).
      exists (theta' x). intros y. split; intros H.
      + rewrite <- (I y). f_equal. apply Hx. eapply (root_response_more theta d d' R ND'); eauto. exact (proj1 (ao_sel _ _ _ Hto)).
      + subst y. eapply (root_response_more theta' d' d R' ND); [apply Hx; auto|]. exact (proj1 (alikes_back _ _ I _ _ (ao_sel _ _ _ Hto))).
    - eapply document_ok_less; eauto. apply (vd_selections _ _ _ _ _ V).
    - eapply can_merge_less; eauto. apply (vd_merge _ _ _ _ _ V).
    - intros w args defs H. apply (vd_argument_names _ _ _ _ _ V w). eapply args_more; eauto.
    - intros w args defs H. apply (vd_argument_unique _ _ _ _ _ V w args defs). eapply args_more; eauto.
    - intros w args defs H. apply (vd_argument_required _ _ _ _ _ V w). eapply args_more; eauto.
    - intros f Hf. destruct (frag_more theta d d' R f Hf) as (f' & Hf' & L). destruct (vd_fragment_used _ _ _ _ _ V f' Hf') as (ds & r & O).
      destruct (occurs_in_more theta' d' d R' _ _ O) as (s & O' & P). inversion P; subst. exists ds, r. rewrite (af_name _ _ _ L) in O'. auto.
    - intros n ds r O. destruct (occurs_in_more theta d d' R _ _ O) as (s & O' & P). inversion P; subst. apply (vd_fragment_targets _ _ _ _ _ V) in O'. rewrite NN in O'. auto.
    - intros n H. apply (vd_fragment_cycles _ _ _ _ _ V n). eapply uses_plus_more; eauto.
    - intros r t s c tc Hs Hc Ht. destruct (sel_more S theta d d' R _ _ _ Hs) as (s' & Hs' & P). eapply (vd_possible _ _ _ _ _ V); eauto.
      destruct Hc as [(n & ds & f & -> & Hd & <-)|(ds & sub & ->)]; inversion P; subst; [left|right; eauto].
      destruct (defines_more theta d d' R ND' _ _ Hd) as (f' & Hd' & Hf). exists n, ds, f'. split; auto. split; auto. symmetry. apply (af_cond _ _ _ Hf).
    - intros r a i H. eapply (vd_values _ _ _ _ _ V). eapply argument_more; eauto.
    - intros a i H. eapply (vd_const_values _ _ _ _ _ V). eapply const_argument_more; eauto.
    - intros o v x Ho Hv. destruct (OM o Ho) as (o' & Ho' & Hto). rewrite (ao_vars _ _ _ Hto) in Hv. eapply (vd_defaults _ _ _ _ _ V); eauto.
    - intros x loc H. eapply (vd_directive_defined _ _ _ _ _ V). eapply directive_more; eauto.
    - intros x loc dd H. eapply (vd_directive_places _ _ _ _ _ V). eapply directive_more; eauto.
    - intros ds [(r & loc & H)|H]; apply (vd_directive_unique _ _ _ _ _ V); [left|right].
      + exists r, loc. eapply directives_more; eauto.
      + eapply const_directives_more; eauto.
    - intros o Ho. destruct (OM o Ho) as (o' & Ho' & Hto). rewrite (ao_vars _ _ _ Hto). apply (vd_variable_names _ _ _ _ _ V); auto.
    - intros o v Ho Hv. destruct (OM o Ho) as (o' & Ho' & Hto). rewrite (ao_vars _ _ _ Hto) in Hv. eapply (vd_variable_types _ _ _ _ _ V); eauto.
    - intros i o x E W. destruct (Hp theta d d' R i o E) as (o' & E' & Hto). rewrite (ao_vars _ _ _ Hto). eapply (vd_variable_defined _ _ _ _ _ V); eauto. eapply writes_more; eauto.
    - intros i o v E Hv. destruct (Hp theta d d' R i o E) as (o' & E' & Hto). rewrite (ao_vars _ _ _ Hto) in Hv.
      eapply (writes_more theta' d' d R' ND). eapply (vd_variable_used _ _ _ _ _ V); eauto.
    - intros i o r v t df E H Hv U. destruct (Hp theta d d' R i o E) as (o' & E' & Hto). rewrite (ao_vars _ _ _ Hto) in Hv.
      eapply (vd_variable_usages _ _ _ _ _ V); eauto; [eapply refers_more; eauto|eapply used_as_more; eauto].
  Qed.
End Whole.
