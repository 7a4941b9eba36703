(** One operation taken out of a document: lemmas for C88. *)
From Verif Require Import Base Ast CoercionSpec Graph Doc DocSpec DocRules DocRulesSpec FragmentsSpec FragmentCycles FragmentCyclesProofs DocVariablesSpec ValueEqSpec
  MergingSpec ValiditySpec TrimSpec TrimProofs AloneSpec.

Lemma trim_same : forall s, trim s s.
Proof.
  fix F 1. intros [al n args ds sub|n ds|c ds sub]; constructor; auto.
  - induction sub as [|x sub IH]; intros s Hs; [destruct Hs|]. destruct Hs as [<-|Hs]; [exists x; split; [left; reflexivity|apply F]|].
    destruct (IH s Hs) as (s' & Hs' & P). exists s'. split; [right; exact Hs'|exact P].
  - induction sub as [|x sub IH]; intros s Hs; [destruct Hs|]. destruct Hs as [<-|Hs]; [exists x; split; [left; reflexivity|apply F]|].
    destruct (IH s Hs) as (s' & Hs' & P). exists s'. split; [right; exact Hs'|exact P].
Qed.
Lemma trims_same sels : trims sels sels.
Proof. intros s Hs. exists s. split; auto using trim_same. Qed.
Lemma thinner_impl {A} (R Q : A -> A -> Prop) l l' : (forall a b, R a b -> Q a b) -> thinner R l l' -> thinner Q l l'.
Proof. intros H. induction 1; constructor; auto. Qed.
Lemma thinner_one {A} (R : A -> A -> Prop) a l : In a l -> R a a -> thinner R [a] l.
Proof. intros Hi Hr. induction l as [|b l IH]; [destruct Hi|]. destruct Hi as [->|Hi]; [apply th_keep; auto; constructor|apply th_drop; auto]. Qed.
Lemma occurs_inner s sels al n args ds sub : occurs (SField al n args ds sub) sels -> occurs s sub -> occurs s sels.
Proof. induction 1; intros; [eapply occ_field|eapply occ_field|eapply occ_inline]; eauto. Qed.
Lemma occurs_inner_inline s sels c ds sub : occurs (SInline c ds sub) sels -> occurs s sub -> occurs s sels.
Proof. induction 1; intros; [eapply occ_inline|eapply occ_field|eapply occ_inline]; eauto. Qed.
Lemma spreads_occurs n sels : spreads n sels <-> exists ds, occurs (SSpread n ds) sels.
Proof.
  split.
  - intros (s & Hi & Hs). revert sels Hi. induction Hs as [ds|al m args ds sub s Hi _ IH|c ds sub s Hi _ IH]; intros sels H.
    + exists ds. constructor. auto.
    + destruct (IH sub Hi) as (ds' & O). exists ds'. eapply occ_field; eauto.
    + destruct (IH sub Hi) as (ds' & O). exists ds'. eapply occ_inline; eauto.
  - intros (ds & O). remember (SSpread n ds) as s eqn:E. induction O as [sels Hi|sels al m args ds' sub Hi _ IH|sels c ds' sub Hi _ IH]; subst.
    + exists (SSpread n ds). split; auto. constructor.
    + destruct IH as (s & Hs & P). eexists. split; eauto. econstructor; eauto.
    + destruct IH as (s & Hs & P). eexists. split; eauto. econstructor; eauto.
Qed.

Section Alone.
  Variable S : schema.
  Variables d d1 : document.
  Variable o : operation.
  Hypothesis A : alone d o d1.
  Hypothesis Ho : In o (doc_ops d).
  Hypothesis ND : NoDup (map fr_name (doc_frags d)).
  Notation need := (needs d (op_sel o)).

  Lemma alone_trimmed : trimmed d1 d.
  Proof using A Ho.
    split.
    - rewrite (an_op _ _ _ A). apply thinner_one; auto. split; auto using trims_same.
    - eapply thinner_impl; [|exact (an_order _ _ _ A)]. intros a b ->. split; auto using trims_same.
  Qed.
  Lemma alone_names : NoDup (map fr_name (doc_frags d1)).
  Proof using A Ho ND. apply (names_once d1 d alone_trimmed ND). Qed.
  Lemma alone_in f : In f (doc_frags d1) <-> In f (doc_frags d) /\ need (fr_name f).
  Proof using A.
    split.
    - intros H. destruct (thinner_in _ _ _ (an_order _ _ _ A) f H) as (f' & Hf & <-). split; auto. apply (an_frags _ _ _ A f Hf). auto.
    - intros (Hf & H). apply (an_frags _ _ _ A f Hf). auto.
  Qed.
  Lemma alone_defines n f : defines d1 n f <-> defines d n f /\ need n.
  Proof using A Ho ND.
    rewrite (defines_in_iff d1 n f alone_names), (defines_in_iff d n f ND), alone_in. split.
    - intros ((H1 & H2) & <-). auto.
    - intros ((H1 & <-) & H2). auto.
  Qed.
  (** all fragments spread in [sels] are needed *)
  Definition covered (sels : list selection) : Prop := forall n ds, occurs (SSpread n ds) sels -> need n.
  Lemma covered_op : covered (op_sel o).
  Proof using. intros n ds H. econstructor; eauto. Qed.
  Lemma covered_frag n f : need n -> defines d n f -> covered (fr_sel f).
  Proof using. intros Hn Hd m ds H. eapply nd_through; eauto. Qed.
  Lemma covered_in f : In f (doc_frags d1) -> covered (fr_sel f).
  Proof using A ND. intros H. apply alone_in in H as (Hi & Hn). eapply covered_frag; eauto. apply (defines_in_iff d _ f ND). auto. Qed.
  Lemma covered_field sels al n args ds sub : covered sels -> In (SField al n args ds sub) sels -> covered sub.
  Proof using. intros C Hi m ds' O. eapply C. eapply occ_field; eauto. Qed.
  Lemma covered_inline sels c ds sub : covered sels -> In (SInline c ds sub) sels -> covered sub.
  Proof using. intros C Hi m ds' O. eapply C. eapply occ_inline; eauto. Qed.
  Lemma covered_spread sels n ds f : covered sels -> In (SSpread n ds) sels -> defines d n f -> defines d1 n f /\ covered (fr_sel f).
  Proof using A Ho ND. intros C Hi Hd. assert (Hn : need n) by (eapply C; constructor; eauto). split; [apply alone_defines; auto|eapply covered_frag; eauto]. Qed.

  Lemma root_response_alone sels x : root_response d sels x -> covered sels -> root_response d1 sels x.
  Proof using A Ho ND.
    induction 1 as [sels al n args ds sub Hi|sels c ds sub x Hi _ IH|sels n ds f x Hi Hd _ IH]; intros C.
    - eapply rr_field; eauto.
    - eapply rr_inline; eauto using covered_inline.
    - destruct (covered_spread _ _ _ _ C Hi Hd). eapply rr_spread; eauto.
  Qed.
  Lemma collected_alone t sels x : collected S d t sels x -> covered sels -> collected S d1 t sels x /\ covered (sf_sub x).
  Proof using A Ho ND.
    induction 1 as [t sels al n args ds sub fd Hi Hf|t sels ds sub x Hi _ IH|t sels c ds sub t1 x Hi Ht _ IH|t sels n ds f t1 x Hi Hd Ht _ IH]; intros C.
    - split; [eapply col_field; eauto|cbn; eapply covered_field; eauto].
    - destruct (IH (covered_inline _ _ _ _ C Hi)). split; auto. eapply col_inline; eauto.
    - destruct (IH (covered_inline _ _ _ _ C Hi)). split; auto. eapply col_inline_on; eauto.
    - destruct (covered_spread _ _ _ _ C Hi Hd) as (Hd1 & C1). destruct (IH C1). split; auto. eapply col_spread; eauto.
  Qed.
  Lemma merged_alone x y a b : merged S d x y a b -> covered (sf_sub x) -> covered (sf_sub y) ->
    merged S d1 x y a b /\ covered (sf_sub a) /\ covered (sf_sub b).
  Proof using A Ho ND.
    intros (Ha & Hb & E) Cx Cy.
    assert (K : forall c, below S d x c \/ below S d y c -> (below S d1 x c \/ below S d1 y c) /\ covered (sf_sub c)).
    { intros c [(t & Ht & H)|(t & Ht & H)]; apply collected_alone in H as (H & C); auto; (split; [|exact C]); [left|right]; exists t; auto. }
    destruct (K a Ha). destruct (K b Hb). split; [split; [|split]|split]; auto.
  Qed.
  Lemma shapes_alone x y : shapes_conflict S d x y -> covered (sf_sub x) -> covered (sf_sub y) -> shapes_conflict S d1 x y.
  Proof using A Ho ND.
    induction 1 as [x y H|x y a b M _ IH]; intros Cx Cy; [apply sc_type; auto|]. destruct (merged_alone _ _ _ _ M Cx Cy) as (M' & Ca & Cb). eapply sc_below; eauto.
  Qed.
  Lemma conflict_alone x y : selections_conflict S d can_meet x y -> covered (sf_sub x) -> covered (sf_sub y) -> selections_conflict S d1 can_meet x y.
  Proof using A Ho ND.
    induction 1 as [x y M H|x y M H|x y a b M G _ IH]; intros Cx Cy; [apply fc_name; auto|apply fc_args; auto|].
    destruct (merged_alone _ _ _ _ G Cx Cy) as (M' & Ca & Cb). eapply fc_below; eauto.
  Qed.

  (** ** The same operation or fragment in both *)
  Inductive twin : root -> root -> Prop :=
  | tw_op i : nth_error (doc_ops d) i = Some o -> twin (ROp i) (ROp 0)
  | tw_frag j k f : nth_error (doc_frags d) j = Some f -> nth_error (doc_frags d1) k = Some f -> twin (RFrag j) (RFrag k).
  Lemma twin_top r r1 t sels : twin r r1 -> top S d r t sels -> top S d1 r1 t sels /\ covered sels.
  Proof using A ND.
    intros [i E|j k f E E1] H; inversion H as [? o2 ? E2|? f2 ? E2]; subst.
    - rewrite E in E2. injection E2 as <-. split; [constructor; auto; rewrite (an_op _ _ _ A); reflexivity|apply covered_op].
    - rewrite E in E2. injection E2 as <-. split; [constructor; auto|apply covered_in; eapply nth_error_In; eauto].
  Qed.
  Lemma covered_within t sels t' sels' : within S t sels t' sels' -> covered sels -> covered sels'.
  Proof using. induction 1; intros C; auto; eauto using covered_field, covered_inline. Qed.
  Lemma twin_set r r1 t sels : twin r r1 -> set_at S d r t sels -> set_at S d1 r1 t sels /\ covered sels.
  Proof using A ND.
    intros W (t0 & sels0 & H & I). destruct (twin_top _ _ _ _ W H) as (H1 & C). split; [exists t0, sels0; auto|eapply covered_within; eauto].
  Qed.
  Lemma twin_sel r r1 t s : twin r r1 -> sel_at S d r t s -> sel_at S d1 r1 t s.
  Proof using A ND. intros W (sels & H & Hi). exists sels. split; auto. eapply twin_set; eauto. Qed.
  Lemma twin_directives r r1 ds loc : twin r r1 -> directives_at S d r ds loc -> directives_at S d1 r1 ds loc.
  Proof using A ND.
    intros W H. inversion H as [i o2 E N|i f E N|r2 t al n args ds2 sub fd Hs Hf N|r2 t n ds2 Hs N|r2 t c ds2 sub Hs N]; subst.
    - inversion W as [? E1|]; subst. rewrite E in E1. injection E1 as ->. constructor; auto. rewrite (an_op _ _ _ A). reflexivity.
    - inversion W as [|? k f1 E1 E2]; subst. rewrite E in E1. injection E1 as <-. constructor; auto.
    - eapply dirs_field; eauto using twin_sel.
    - eapply dirs_spread; eauto using twin_sel.
    - eapply dirs_inline; eauto using twin_sel.
  Qed.
  Lemma twin_argument r r1 a i : twin r r1 -> argument_at S d r a i -> argument_at S d1 r1 a i.
  Proof using A ND. intros W H. inversion H; subst; [eapply arg_field; eauto using twin_sel|eapply arg_directive; eauto using twin_directives]. Qed.
  Lemma twin_occurs r r1 s : twin r r1 -> occurs_in d s r -> occurs_in d1 s r1.
  Proof using A.
    intros W H. inversion H as [i o2 E O|i f E O]; subst.
    - inversion W as [? E1|]; subst. rewrite E in E1. injection E1 as ->. econstructor; eauto. rewrite (an_op _ _ _ A). reflexivity.
    - inversion W as [|? k f1 E1 E2]; subst. rewrite E in E1. injection E1 as <-. econstructor; eauto.
  Qed.
  Lemma twin_written x r r1 : twin r r1 -> written_in d x r -> written_in d1 x r1.
  Proof using A.
    intros W H. inversion H as [r2 s O V|i o2 E V|i f E V]; subst.
    - eapply wr_sel; eauto using twin_occurs.
    - inversion W as [? E1|]; subst. rewrite E in E1. injection E1 as ->. eapply wr_op; eauto. rewrite (an_op _ _ _ A). reflexivity.
    - inversion W as [|? k f1 E1 E2]; subst. rewrite E in E1. injection E1 as <-. eapply wr_frag; eauto.
  Qed.
  Lemma twin_needs r r1 n ds : twin r r1 -> occurs_in d (SSpread n ds) r -> need n.
  Proof using A ND.
    intros W H. inversion H as [i o2 E O|i f E O]; subst.
    - inversion W as [? E1|]; subst. rewrite E in E1. injection E1 as ->. econstructor; eauto.
    - inversion W as [|? k f1 E1 E2]; subst. rewrite E in E1. injection E1 as <-. eapply (covered_in f); eauto. eapply nth_error_In; eauto.
  Qed.
  Lemma denotes_alone n j : denotes d n j -> need n -> exists k, denotes d1 n k /\ twin (RFrag j) (RFrag k).
  Proof using A Ho ND.
    intros (f & E & En & _) Hn. assert (Hi : In f (doc_frags d1)).
    { apply alone_in. split; [eapply nth_error_In; eauto|rewrite En; auto]. }
    apply In_nth_error in Hi as (k & Ek). exists k. split; [|econstructor; eauto]. exists f. split; auto. split; auto.
    intros k' g Eg Egn. assert (k' = k); [|lia]. pose proof alone_names as N1. rewrite NoDup_nth_error in N1. apply N1.
    - apply nth_error_Some. rewrite (map_nth_error fr_name _ _ Eg). discriminate.
    - rewrite (map_nth_error fr_name _ _ Ek), (map_nth_error fr_name _ _ Eg). congruence.
  Qed.
  Lemma spreads_text_alone r r' : star (spreads_text d) r r' -> forall r1, twin r r1 -> exists r2, star (spreads_text d1) r1 r2 /\ twin r' r2.
  Proof using A Ho ND.
    induction 1 as [r|r r' r'' H _ IH]; intros r1 W; [exists r1; split; auto; constructor|]. destruct H as [r n ds j O D].
    destruct (denotes_alone n j D (twin_needs _ _ _ _ W O)) as (k & Dk & Wk). destruct (IH _ Wk) as (r2 & H2 & W2). exists r2. split; auto.
    econstructor 2; [|exact H2]. econstructor; eauto using twin_occurs.
  Qed.
  Lemma within_occurs t sels t' sels' s : within S t sels t' sels' -> In s sels' -> occurs s sels.
  Proof using. induction 1; intros Hi; [constructor; auto|eapply occ_field|eapply occ_inline|eapply occ_inline]; eauto. Qed.
  Lemma sel_occurs r t s : sel_at S d r t s -> occurs_in d s r.
  Proof using. intros (sels & (t0 & sels0 & H & W) & Hi). pose proof (within_occurs _ _ _ _ _ W Hi). destruct H; econstructor; eauto. Qed.
  Lemma refers_alone r r' : star (refers S d) r r' -> forall r1, twin r r1 -> exists r2, star (refers S d1) r1 r2 /\ twin r' r2.
  Proof using A Ho ND.
    induction 1 as [r|r r' r'' H _ IH]; intros r1 W; [exists r1; split; auto; constructor|]. destruct H as [r t n ds j Hs D].
    destruct (denotes_alone n j D (twin_needs _ _ _ _ W (sel_occurs _ _ _ Hs))) as (k & Dk & Wk). destruct (IH _ Wk) as (r2 & H2 & W2). exists r2. split; auto.
    econstructor 2; [|exact H2]. econstructor; eauto using twin_sel.
  Qed.
  Lemma uses_alone a b : fragment_uses d a b -> need a -> fragment_uses d1 a b /\ need b.
  Proof using A Ho ND.
    intros (f & Hd & Hs) Hn. split; [exists f; split; auto; apply alone_defines; auto|]. apply spreads_occurs in Hs as (ds & O). eapply nd_through; eauto.
  Qed.
  Lemma uses_plus_alone a b : plus (fragment_uses d) a b -> need a -> plus (fragment_uses d1) a b.
  Proof using A Ho ND. induction 1 as [a b H|a b c H _ IH]; intros Hn; destruct (uses_alone _ _ H Hn); [constructor 1|econstructor 2]; eauto. Qed.

  (** ** Nothing is loose *)
  Lemma alone_tight i : nth_error (doc_ops d) i = Some o -> nothing_loose d -> nothing_loose d1.
  Proof using A Ho ND.
    intros E L. destruct (thinner_positions _ _ _ (tr_frags _ _ alone_trimmed)) as (q & _ & Hq).
    assert (Hp : forall k o1, nth_error (doc_ops d1) k = Some o1 -> exists o', nth_error (doc_ops d) ((fun _ => i) k) = Some o' /\ trim_operation o1 o').
    { rewrite (an_op _ _ _ A). intros [|[|k]] o1 E1; try discriminate E1. injection E1 as <-. exists o. split; auto. split; auto using trims_same. }
    constructor.
    - rewrite (an_op _ _ _ A). intros o1 [<-|[]] Et. destruct (nl_roots _ L o Ho Et) as (x & Hx). exists x. apply root_response_alone; auto using covered_op.
    - intros n ds r H. assert (Hn : need n).
      { inversion H as [k o1 E1 O|k f E1 O]; subst.
        - rewrite (an_op _ _ _ A) in E1. destruct k as [|[|k]]; try discriminate E1. injection E1 as <-. econstructor; eauto.
        - eapply (covered_in f); eauto. eapply nth_error_In; eauto. }
      destruct (occurs_in_more d1 d _ q Hp Hq _ _ H) as (s' & H' & P). inversion P; subst. apply (nl_targets _ L) in H'. apply in_map_iff in H' as (f & <- & Hf).
      apply List.in_map. apply alone_in. auto.
    - intros f Hf. apply alone_in in Hf as (Hf & Hn). remember (fr_name f) as n eqn:En. clear En. inversion Hn as [n' ds O|n' ds m g Hm Hd O]; subst.
      + exists ds, (ROp 0). econstructor; eauto. rewrite (an_op _ _ _ A). reflexivity.
      + assert (Hg : In g (doc_frags d1)) by (apply (defines_in_iff d1 m g alone_names), alone_defines; auto). apply In_nth_error in Hg as (k & Ek).
        exists ds, (RFrag k). econstructor; eauto.
    - intros k o1 v E1 Hv. rewrite (an_op _ _ _ A) in E1. destruct k as [|[|k]]; try discriminate E1. injection E1 as <-.
      destruct (nl_variables _ L i o v E Hv) as (r & H & W). destruct (spreads_text_alone _ _ H (ROp 0)) as (r2 & H2 & T); [constructor; auto|].
      exists r2. split; auto. eapply twin_written; eauto.
  Qed.
End Alone.

(** * There is such a document *)
Section Exists.
  Variable d : document.
  Variable o : operation.
  Let succ (a : option name) : list (option name) :=
    match a with
    | None => map Some (contained_spreads (op_sel o))
    | Some n => match assoc_last n (map (fun f => (fr_name f, contained_spreads (fr_sel f))) (doc_frags d)) with Some l => map Some l | None => [] end
    end.
  Lemma succ_some n m : In m (succ (Some n)) <-> exists f x ds, defines d n f /\ occurs (SSpread x ds) (fr_sel f) /\ m = Some x.
  Proof using.
    unfold succ. pose proof (defines_assoc (fun f => contained_spreads (fr_sel f)) d n) as D. destruct (assoc_last n _) as [l|].
    - destruct (proj1 (D l) eq_refl) as (f & Hd & <-). split.
      + intros H. apply in_map_iff in H as (x & <- & Hx). apply contained_spreads_In, spreads_occurs in Hx as (ds & O). eauto 6.
      + intros (g & x & ds & Hg & O & ->). rewrite (defines_fun d n f g Hd Hg). apply in_map, contained_spreads_In, spreads_occurs. eauto.
    - split; [intros []|]. intros (g & x & ds & Hg & _). exfalso. assert (K := proj2 (D (contained_spreads (fr_sel g))) (ex_intro _ g (conj Hg eq_refl))). discriminate K.
  Qed.
  Lemma needs_plus n : needs d (op_sel o) n <-> plus (edge succ) None (Some n).
  Proof using.
    split.
    - induction 1 as [n ds O|n ds m f _ IH Hd O].
      + constructor 1. unfold edge, succ. apply in_map, contained_spreads_In, spreads_occurs. eauto.
      + eapply plus_snoc; [exact IH|]. apply succ_some. eauto 6.
    - intros H. remember (Some n) as b eqn:Eb. revert n Eb. apply plus_last in H as (c & H & E). assert (K : forall c, star (edge succ) None c -> forall b n, edge succ c b -> b = Some n -> needs d (op_sel o) n).
      { clear. intros c H. assert (G : match c with None => True | Some m => needs d (op_sel o) m end).
        { assert (Q : forall a c, star (edge succ) a c -> match a with None => True | Some m => needs d (op_sel o) m end -> match c with None => True | Some m => needs d (op_sel o) m end).
          { induction 1 as [a|a b c' E _ IH]; auto. intros Ga. apply IH. destruct a as [m|].
            - apply succ_some in E as (f & x & ds & Hd & O & ->). eapply nd_through; eauto.
            - unfold edge, succ in E. apply in_map_iff in E as (x & <- & Hx). apply contained_spreads_In, spreads_occurs in Hx as (ds & O). econstructor; eauto. }
          apply (Q None c H I). }
        intros b n E ->. destruct c as [m|].
        - apply succ_some in E as (f & x & ds & Hd & O & Ex). injection Ex as <-. eapply nd_through; eauto.
        - unfold edge, succ in E. apply in_map_iff in E as (x & Ex & Hx). injection Ex as <-. apply contained_spreads_In, spreads_occurs in Hx as (ds & O). econstructor; eauto. }
      intros n Eb. eapply K; eauto.
  Qed.
  Lemma needs_dec n : needs d (op_sel o) n \/ ~ needs d (op_sel o) n.
  Proof using.
    assert (dec : forall a b : option name, {a = b} + {a <> b}) by (repeat decide equality).
    set (U := map Some (contained_spreads (op_sel o)) ++ flat_map (fun f => map Some (contained_spreads (fr_sel f))) (doc_frags d)).
    assert (HU : forall a b, edge succ a b -> In b U).
    { intros [m|] b E; unfold U; apply in_app_iff; [right|left; exact E]. apply succ_some in E as (f & x & ds & Hd & O & ->). apply in_flat_map. exists f. split.
      - destruct Hd as (l & l' & E & _). rewrite E. apply in_elt.
      - apply in_map, contained_spreads_In, spreads_occurs. eauto. }
    destruct (dfs_reach dec succ U HU (Datatypes.S (length U)) None) as (r & _ & Hr); [lia|].
    destruct (in_dec dec (Some n) r) as [H|H]; rewrite Hr, <- needs_plus in H; auto.
  Qed.
  Lemma alone_exists : NoDup (map fr_name (doc_frags d)) -> exists d1, alone d o d1.
  Proof using.
    intros ND. assert (K : forall l, NoDup (map fr_name l) -> exists l1, thinner eq l1 l /\ forall f, In f l -> (In f l1 <-> needs d (op_sel o) (fr_name f))).
    { induction l as [|f l IH]; cbn; intros N; [exists []; split; [constructor|intros f []]|]. inversion N as [|? ? N1 N2]; subst. destruct (IH N2) as (l1 & T & H).
      assert (Nf : forall g, In g l1 -> In g l) by (intros g Hg; destruct (thinner_in _ _ _ T g Hg) as (g' & Hg' & <-); auto).
      destruct (needs_dec (fr_name f)) as [Y|Y].
      - exists (f :: l1). split; [constructor; auto|]. intros g [<-|Hg]; [split; auto; intros _; left; auto|]. rewrite <- (H g Hg). split; [|right; auto].
        intros [<-|Hi]; auto. exfalso. apply N1. apply in_map. auto.
      - exists l1. split; [constructor; auto|]. intros g [<-|Hg]; [|auto]. split; [|contradiction]. intros Hi. exfalso. apply N1, in_map. auto. }
    destruct (K _ ND) as (l1 & T & H). exists {| doc_ops := [o]; doc_frags := l1 |}. constructor; auto.
  Qed.
End Exists.
