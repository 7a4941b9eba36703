(** Lemmas for C90: what holds in a document holds in the document with other names for its variables. *)
From Verif Require Import Base Ast CoercionTypes CoercionSpec Graph Doc DocSpec DocRules DocRulesSpec FragmentsSpec FragmentCyclesProofs DocVariablesSpec ValueEqSpec
  MergingSpec ValiditySpec VariableNamesSpec.

(** ** Back again *)
Section Back.
  Variables nu nu' : name -> name.
  Hypothesis I : forall n, nu' (nu n) = n.
  Lemma map_back {A} (f g : A -> A) l : (forall x, g (f x) = x) -> map g (map f l) = l.
  Proof using. intros H. rewrite map_map. rewrite <- (map_id l) at 2. apply map_ext. auto. Qed.
  Lemma value_back v : named_value nu' (named_value nu v) = v.
  Proof using I.
    induction v as [n|z|b|s|b| |n|vs IH|es IH] using value_ind'; cbn; auto.
    - rewrite I. auto.
    - f_equal. rewrite map_map. induction IH as [|x l Hx _ IHl]; cbn; auto. rewrite Hx, IHl. auto.
    - f_equal. rewrite map_map. induction IH as [|[k x] l Hx _ IHl]; cbn in *; auto. rewrite Hx, IHl. auto.
  Qed.
  Lemma argument_back a : named_argument nu' (named_argument nu a) = a.
  Proof using I. destruct a as [k v]. unfold named_argument. cbn. rewrite value_back. auto. Qed.
  Lemma directive_back x : named_directive nu' (named_directive nu x) = x.
  Proof using I. destruct x as [n args]. unfold named_directive. cbn. rewrite map_back; auto using argument_back. Qed.
  Lemma selection_back s : named_selection nu' (named_selection nu s) = s.
  Proof using I.
    induction s as [al n args ds sub IH|n ds|c ds sub IH] using selection_ind'; cbn; rewrite ?(map_back (named_argument nu)), ?(map_back (named_directive nu));
      auto using argument_back, directive_back; f_equal; rewrite map_map; induction IH as [|x l Hx _ IHl]; cbn; auto; rewrite Hx, IHl; auto.
  Qed.
  Lemma operation_back o : named_operation nu' (named_operation nu o) = o.
  Proof using I.
    destruct o. unfold named_operation. cbn. rewrite !map_back; auto using directive_back, selection_back. intros v. destruct v. unfold named_variable. cbn. rewrite I. auto.
  Qed.
  Lemma fragment_back f : named_fragment nu' (named_fragment nu f) = f.
  Proof using I. destruct f. unfold named_fragment. cbn. rewrite !map_back; auto using directive_back, selection_back. Qed.
  Lemma document_back d : named_document nu' (named_document nu d) = d.
  Proof using I. destruct d. unfold named_document. cbn. rewrite !map_back; auto using operation_back, fragment_back. Qed.
End Back.

Lemma map_nonempty {A B} (f : A -> B) l : l <> [] -> map f l <> [].
Proof. destruct l; [contradiction|discriminate]. Qed.

Section Forth.
  Variable S : schema.
  Variable nu : name -> name.
  Variable d : document.
  Notation nval := (named_value nu).
  Notation narg := (named_argument nu).
  Notation ndir := (named_directive nu).
  Notation nsel := (named_selection nu).
  Notation nop := (named_operation nu).
  Notation nfr := (named_fragment nu).
  Notation d' := (named_document nu d).

  Lemma in_sel s sels : In s sels -> In (nsel s) (map nsel sels).
  Proof. apply List.in_map. Qed.
  Lemma nth_op i o : nth_error (doc_ops d) i = Some o -> nth_error (doc_ops d') i = Some (nop o).
  Proof. apply map_nth_error. Qed.
  Lemma nth_frag i f : nth_error (doc_frags d) i = Some f -> nth_error (doc_frags d') i = Some (nfr f).
  Proof. apply map_nth_error. Qed.
  Lemma in_op o : In o (doc_ops d) -> In (nop o) (doc_ops d').
  Proof. apply List.in_map. Qed.
  Lemma frag_names l : map fr_name (map nfr l) = map fr_name l.
  Proof. rewrite map_map. apply map_ext. auto. Qed.
  Lemma nth_frag_back i g : nth_error (doc_frags d') i = Some g -> exists f, nth_error (doc_frags d) i = Some f /\ g = nfr f.
  Proof. cbn. rewrite nth_error_map. destruct (nth_error (doc_frags d) i) as [f|]; intros E; [injection E as <-; eauto|discriminate]. Qed.
  Lemma defines_named n f : defines d n f -> defines d' n (nfr f).
  Proof.
    intros (b & a & E & En & Hn). exists (map nfr b), (map nfr a). cbn. rewrite E, map_app. split; auto. split; auto. rewrite frag_names. auto.
  Qed.
  Lemma within_named t sels t1 sels1 : within S t sels t1 sels1 -> within S t (map nsel sels) t1 (map nsel sels1).
  Proof.
    induction 1 as [|t sels al n args ds sub fd t1 t' sels' Hi Hne Hf Ht _ IH|t sels ds sub t' sels' Hi _ IH|t sels c ds sub t1 t' sels' Hi Ht _ IH];
      [constructor|apply in_sel in Hi; eapply within_field; eauto using map_nonempty|apply in_sel in Hi; eapply within_inline; eauto|apply in_sel in Hi; eapply within_inline_on; eauto].
  Qed.
  Lemma set_named r t sels : set_at S d r t sels -> set_at S d' r t (map nsel sels).
  Proof.
    intros (t0 & sels0 & T & W). exists t0, (map nsel sels0). split; auto using within_named.
    destruct T as [i o t0 E R|i f t0 E R]; [apply (top_op S d' i (nop o))|apply (top_frag S d' i (nfr f))]; auto using nth_op, nth_frag.
  Qed.
  Lemma sel_named r t s : sel_at S d r t s -> sel_at S d' r t (nsel s).
  Proof. intros (sels & H & Hi). exists (map nsel sels). auto using set_named, in_sel. Qed.
  Lemma directives_named r ds loc : directives_at S d r ds loc -> directives_at S d' r (map ndir ds) loc.
  Proof.
    destruct 1 as [i o E N|i f E N|r t al n args ds sub fd H Hf N|r t n ds H N|r t c ds sub H N].
    - apply (dirs_op S d' i (nop o)); auto using nth_op. apply map_nonempty. auto.
    - apply (dirs_frag S d' i (nfr f)); auto using nth_frag. apply map_nonempty. auto.
    - apply sel_named in H. eapply dirs_field; eauto using map_nonempty.
    - apply sel_named in H. eapply dirs_spread; eauto using map_nonempty.
    - apply sel_named in H. eapply dirs_inline; eauto using map_nonempty.
  Qed.
  Lemma const_directives_named ds : const_directives_at d ds -> const_directives_at d' ds.
  Proof.
    intros (N & o & v & Ho & Hv & E). split; auto. exists (nop o), (named_variable nu v). split; [apply in_op; auto|]. split; [|auto]. cbn. apply List.in_map. auto.
  Qed.
  Lemma argument_named r a i : argument_at S d r a i -> argument_at S d' r (narg a) i.
  Proof.
    destruct 1 as [r t al n args ds sub fd a i H Hf Ha Hi|r ds loc x dd a i H Hx Hd Ha Hi].
    - apply sel_named in H. eapply arg_field; eauto. apply List.in_map. auto.
    - eapply arg_directive; [apply directives_named; eauto|apply List.in_map; eauto|eauto|cbn; apply List.in_map; eauto|auto].
  Qed.
  Lemma const_argument_named a i : const_argument_at S d a i -> const_argument_at S d' a i.
  Proof. intros (ds & x & dd & H & K). exists ds, x, dd. auto using const_directives_named. Qed.
  Lemma arg_names args : map fst (map narg args) = map fst args.
  Proof. rewrite map_map. apply map_ext. auto. Qed.
  Lemma args_named w args defs : args_at S d w args defs -> exists args', args_at S d' w args' defs /\ map fst args' = map fst args.
  Proof.
    destruct 1 as [r t al n args ds sub fd H Hf|r ds loc x dd H Hx Hd|ds x dd H Hx Hd].
    - apply sel_named in H. exists (map narg args). split; [eapply args_field; eauto|apply arg_names].
    - exists (map narg (dir_args x)). split; [|apply arg_names]. apply (args_directive S d' r (map ndir ds) loc (ndir x) dd); auto using directives_named. apply List.in_map. auto.
    - exists (dir_args x). split; auto. eapply args_const_directive; eauto using const_directives_named.
  Qed.
  Lemma directive_named x loc : directive_at S d x loc -> exists x', directive_at S d' x' loc /\ dir_name x' = dir_name x.
  Proof.
    destruct 1 as [r ds loc x H Hx|ds x H Hx].
    - exists (ndir x). split; auto. eapply dir_var; [apply directives_named; eauto|apply List.in_map; auto].
    - exists x. split; auto. eapply dir_const; eauto using const_directives_named.
  Qed.
  Lemma sel_ok_named t s : sel_ok S t s -> sel_ok S t (nsel s).
  Proof.
    induction 1 as [t al n args ds fd ft Hf Ht Hl|t al n args ds sub fd ft Hf Ht Hl Hn _ IH|t n ds|t ds sub _ IH|t c ds sub ft Ht Hc _ IH]; cbn.
    - eapply ok_leaf; eauto.
    - eapply ok_composite; eauto using map_nonempty. intros s Hs. apply in_map_iff in Hs as (x & <- & Hx). auto.
    - constructor.
    - constructor. intros s Hs. apply in_map_iff in Hs as (x & <- & Hx). auto.
    - econstructor; eauto. intros s Hs. apply in_map_iff in Hs as (x & <- & Hx). auto.
  Qed.
  Lemma document_ok_named : document_ok S d -> document_ok S d'.
  Proof.
    intros (A & B). split.
    - intros o Ho. apply in_map_iff in Ho as (x & <- & Hx). destruct (A x Hx) as (t & Ht & H). exists t. split; auto. cbn. intros s Hs. apply in_map_iff in Hs as (y & <- & Hy).
      apply sel_ok_named. auto.
    - intros f Hf. apply in_map_iff in Hf as (x & <- & Hx). destruct (B x Hx) as (t & Ht & Hc & H). exists t. split; auto. split; auto. cbn. intros s Hs.
      apply in_map_iff in Hs as (y & <- & Hy). apply sel_ok_named. auto.
  Qed.
  Lemma root_response_named sels x : root_response d sels x -> root_response d' (map nsel sels) x.
  Proof.
    induction 1 as [sels al n args ds sub Hi|sels c ds sub x Hi _ IH|sels n ds f x Hi Hd _ IH]; apply in_sel in Hi; cbn in Hi;
      [eapply rr_field; eauto|eapply rr_inline; eauto|eapply rr_spread; eauto using defines_named].
  Qed.

  (** ** Merging *)
  Definition nfield (x : sfield) : sfield :=
    {| sf_alias := sf_alias x; sf_name := sf_name x; sf_args := map narg (sf_args x); sf_sub := map nsel (sf_sub x); sf_def := sf_def x; sf_parent := sf_parent x |}.
  Lemma collected_named t sels x : collected S d t sels x -> collected S d' t (map nsel sels) (nfield x).
  Proof.
    induction 1 as [t sels al n args ds sub fd Hi Hf|t sels ds sub x Hi _ IH|t sels c ds sub t1 x Hi Ht _ IH|t sels n ds f t1 x Hi Hd Ht _ IH]; apply in_sel in Hi; cbn in Hi;
      [eapply (col_field S d' t (map nsel sels) al n (map narg args) _ (map nsel sub) fd); eauto|eapply col_inline; eauto|eapply col_inline_on; eauto|
       eapply col_spread; eauto using defines_named; auto].
  Qed.
  Lemma below_named x y : below S d x y -> below S d' (nfield x) (nfield y).
  Proof. intros (t & Ht & C). exists t. split; auto. apply collected_named. auto. Qed.
  Lemma merged_named x y a b : merged S d x y a b -> merged S d' (nfield x) (nfield y) (nfield a) (nfield b).
  Proof. intros (A & B & E). split; [|split]; auto; [destruct A|destruct B]; auto using below_named. Qed.
  Lemma shapes_named x y : shapes_conflict S d x y -> shapes_conflict S d' (nfield x) (nfield y).
  Proof. induction 1 as [x y H|x y a b M _ IH]; [apply sc_type; auto|eapply sc_below; eauto using merged_named]. Qed.
  Lemma last_named es k : assoc_last k (map (fun e => (fst e, nval (snd e))) es) = option_map nval (assoc_last k es).
  Proof.
    induction es as [|[k1 v] es IH]; auto. cbn [map assoc_last fst snd]. rewrite IH. destruct (assoc_last k es); auto. cbn. destruct (teqb k k1); auto.
  Qed.
  Lemma same_named a : forall b, same_value a b -> same_value (nval a) (nval b).
  Proof.
    induction a as [n|z|f|s|f| |n|vs IH|es IH] using value_ind'; intros b H; inversion H; subst; cbn; try (constructor; auto; fail).
    - constructor. match goal with F : Forall2 _ vs _ |- _ => rename F into F2 end. clear H. revert IH. induction F2 as [|x y l l' Hxy _ IHl]; intros IH; constructor.
      + inversion IH; subst. auto.
      + apply IHl. inversion IH; subst. auto.
    - match goal with A : forall k v, entry es k v -> _, B : forall k v', entry _ k v' -> _ |- _ => rename A into H1; rename B into H2 end.
      rewrite Forall_forall in IH. constructor; unfold entry in *.
      + intros k v E. rewrite last_named in E. destruct (assoc_last k es) as [v0|] eqn:E0; [|discriminate]. injection E as <-.
        destruct (H1 k v0 E0) as (v' & E' & Hv). exists (nval v'). rewrite last_named, E'. split; auto. apply (IH (k, v0)); auto. apply assoc_last_In. auto.
      + intros k v' E. rewrite last_named in E. destruct (assoc_last k o') as [v0|] eqn:E0; [|discriminate]. destruct (H2 k v0 E0) as (v & Ev).
        exists (nval v). rewrite last_named, Ev. auto.
  Qed.

  (** ** Fragments and variables *)
  Lemma occurs_named s sels : occurs s sels -> occurs (nsel s) (map nsel sels).
  Proof. induction 1 as [sels Hi|sels al n args ds sub Hi _ IH|sels c ds sub Hi _ IH]; apply in_sel in Hi; [constructor; auto|eapply occ_field; eauto|eapply occ_inline; eauto]. Qed.
  Lemma occurs_in_named s r : occurs_in d s r -> occurs_in d' (nsel s) r.
  Proof. destruct 1 as [i o E O|i f E O]; apply occurs_named in O; [apply (occ_op d' _ i (nop o))|apply (occ_frag d' _ i (nfr f))]; auto using nth_op, nth_frag. Qed.
  Lemma spread_in_named n s : spread_in n s -> spread_in n (nsel s).
  Proof. induction 1 as [ds|al fn args ds sub s Hi _ IH|c ds sub s Hi _ IH]; cbn; [constructor|econstructor; [apply in_sel; eauto|auto]|econstructor; [apply in_sel; eauto|auto]]. Qed.
  Lemma fragment_uses_named a b : fragment_uses d a b -> fragment_uses d' a b.
  Proof. intros (f & Hd & s & Hs & K). exists (nfr f). split; [apply defines_named; auto|]. exists (nsel s). split; [apply in_sel; auto|apply spread_in_named; auto]. Qed.
  Lemma uses_plus_named a b : plus (fragment_uses d) a b -> plus (fragment_uses d') a b.
  Proof. induction 1 as [a b H|a b c H _ IH]; [constructor 1|econstructor 2]; eauto using fragment_uses_named. Qed.
  Lemma denotes_named n j : denotes d n j -> denotes d' n j.
  Proof.
    intros (f & E & En & Hl). exists (nfr f). split; [apply nth_frag; auto|]. split; auto. intros k g Eg Ng. apply nth_frag_back in Eg as (f0 & E0 & ->). eapply Hl; eauto.
  Qed.
  Lemma refers_named r r1 : star (refers S d) r r1 -> star (refers S d') r r1.
  Proof.
    induction 1 as [r|r r1 r2 H _ IH]; [constructor|]. econstructor 2; [|exact IH]. destruct H as [r t n ds j Hs Hd]. apply sel_named in Hs. econstructor; eauto using denotes_named.
  Qed.
  Lemma spreads_text_named r r1 : star (spreads_text d) r r1 -> star (spreads_text d') r r1.
  Proof.
    induction 1 as [r|r r1 r2 H _ IH]; [constructor|]. econstructor 2; [|exact IH]. destruct H as [r n ds j Hs Hd]. apply occurs_in_named in Hs. econstructor; eauto using denotes_named.
  Qed.
  Lemma var_in_named x v : var_in x v -> var_in (nu x) (nval v).
  Proof.
    induction 1 as [|vs v Hi _ IH|es k v Hi _ IH]; cbn; [constructor|eapply vi_list; [apply List.in_map; eauto|auto]|].
    eapply (vi_obj _ _ k); [|exact IH]. apply in_map_iff. exists (k, v). auto.
  Qed.
  Lemma var_in_args_named x args : var_in_args x args -> var_in_args (nu x) (map narg args).
  Proof. intros (a & Ha & H). exists (narg a). split; [apply List.in_map; auto|apply var_in_named; auto]. Qed.
  Lemma var_in_dirs_named x ds : var_in_dirs x ds -> var_in_dirs (nu x) (map ndir ds).
  Proof. intros (y & Hy & H). exists (ndir y). split; [apply List.in_map; auto|apply var_in_args_named; auto]. Qed.
  Lemma written_named x r : written_in d x r -> written_in d' (nu x) r.
  Proof.
    destruct 1 as [r s O V|i o E V|i f E V].
    - apply (wr_sel d' _ r (nsel s)); [apply occurs_in_named; auto|]. destruct s; cbn in *; [destruct V; [left|right]| |]; auto using var_in_args_named, var_in_dirs_named.
    - apply (wr_op d' _ i (nop o)); [apply nth_op; auto|apply var_in_dirs_named; auto].
    - apply (wr_frag d' _ i (nfr f)); [apply nth_frag; auto|apply var_in_dirs_named; auto].
  Qed.
  Lemma writes_named i x : operation_writes d i x -> operation_writes d' i (nu x).
  Proof. intros (r & H & W). exists r. auto using spreads_text_named, written_named. Qed.
  Lemma located_named t df v x t' df' : located S t df v x t' df' -> located S t df (nval v) (nu x) t' df'.
  Proof.
    induction 1 as [|inner r df vs v x t' df' Hi _ IH|t df io es k v f x t' df' Ht Hi Hf _ IH]; cbn; [constructor|eapply loc_item; [apply List.in_map; eauto|auto]|].
    eapply (loc_field S t df io _ k); eauto. apply in_map_iff. exists (k, v). auto.
  Qed.
  Lemma used_as_named r x t df : used_as S d r x t df -> used_as S d' r (nu x) t df.
  Proof. intros (a & i & H & L). exists (narg a), i. split; [apply argument_named; auto|apply located_named; auto]. Qed.

  (** ** Values *)
  Variable accepts : name -> value -> Prop.
  Variable str_enum one_of : bool.
  Hypothesis blind : forall n v, accepts n v -> accepts n (nval v).
  Lemma named_null v : nval v = VNull -> v = VNull.
  Proof using. destruct v; cbn; intros E; try discriminate E; auto. Qed.
  Lemma conforms_named t v : conforms accepts str_enum one_of S t v -> conforms accepts str_enum one_of S t (nval v).
  Proof using blind.
    clear d. revert t v. fix F 3. intros t v H.
    destruct H as [t Ht|t x|n r b v Ht Hb|n r dd v Ht Hn Hv Ha|n r dd v Ht He|n r dd es Ht Hn Hk Hc Hr Ho|inner r vs H|inner r v Hn Hv Hl H]; cbn.
    - constructor; auto.
    - constructor.
    - eapply c_builtin; eauto. clear F. destruct b; cbn in *; firstorder (subst; cbn; eauto).
    - eapply c_scalar; eauto.
      + intros E. apply named_null in E. auto.
      + intros x E. destruct v; cbn in E; try discriminate E. eapply Hv; eauto.
    - eapply c_enum; eauto. destruct He as (e & Hi & [->|(Hs & ->)]); exists e; cbn; auto.
    - eapply c_object; eauto.
      + rewrite map_map. cbn. auto.
      + intros k v Hi. apply in_map_iff in Hi as ([k0 v0] & E & Hi). injection E as <- <-. exact (Hk k0 v0 Hi).
      + intros i v Hi Hin. apply in_map_iff in Hin as ([k0 v0] & E & Hin). cbn in E. injection E as E <-. subst k0. exact (F _ _ (Hc i v0 Hi Hin)).
      + intros i Hi H1 H2. destruct (Hr i Hi H1 H2) as (v & Hv). exists (nval v). apply in_map_iff. exists (iv_name i, v). auto.
      + intros Hm. destruct (Ho Hm) as (k & v & -> & Hv). exists k, (nval v). split; auto. intros E. apply named_null in E. auto.
    - constructor. intros x Hx. apply in_map_iff in Hx as (y & <- & Hy). destruct (H y Hy) as (A & B). split; [exact (F _ _ A)|].
      clear -B. unfold no_promotion in *. destruct inner; auto. destruct y; auto.
    - apply c_promote.
      + intros E. apply named_null in E. auto.
      + intros x E. destruct v; cbn in E; try discriminate E. eapply Hv; eauto.
      + intros x E. destruct v; cbn in E; try discriminate E. eapply Hl; eauto.
      + exact (F _ _ H).
  Qed.
End Forth.

Section Whole.
  Variable S : schema.
  Variable accepts : name -> value -> Prop.
  Variable str_enum one_of : bool.
  Variables nu nu' : name -> name.
  Hypothesis I : forall n, nu' (nu n) = n.
  Hypothesis blind : forall n v, accepts n v -> accepts n (named_value nu' v).
  Variable d : document.
  Notation d' := (named_document nu d).
  Lemma conflict_named x y : selections_conflict S d can_meet x y -> selections_conflict S d' can_meet (nfield nu x) (nfield nu y).
  Proof using I.
    induction 1 as [x y M H|x y M H|x y a b M G _ IH].
    - apply fc_name; auto.
    - apply fc_args; auto. intros K. apply H. apply (same_named nu') in K. cbn in K.
      assert (E : forall l, map (fun e => (fst e, named_value nu' (snd e))) (map (named_argument nu) l) = l).
      { intros l. rewrite map_map. rewrite <- (map_id l) at 2. apply map_ext. intros [k v]. cbn. rewrite (value_back nu nu' I). auto. }
      rewrite !E in K. exact K.
    - eapply fc_below; eauto. apply merged_named. auto.
  Qed.
  Lemma conforms_back t v : conforms accepts str_enum one_of S t (named_value nu v) -> conforms accepts str_enum one_of S t v.
  Proof using I blind. intros H. apply (conforms_named S nu' accepts str_enum one_of blind) in H. rewrite (value_back nu nu' I) in H. auto. Qed.
  Lemma root_response_back sels x : root_response d' (map (named_selection nu) sels) x -> root_response d sels x.
  Proof using I. intros H. apply (root_response_named nu') in H. rewrite (document_back nu nu' I) in H. rewrite map_back in H; auto. apply (selection_back nu nu' I). Qed.
  Lemma named_valid : valid_document S accepts str_enum one_of d' -> valid_document S accepts str_enum one_of d.
  Proof using I blind.
    intros V. constructor.
    - intros i j o o' n E1 E2. apply (vd_operation_names _ _ _ _ _ V i j (named_operation nu o) (named_operation nu o') n); apply nth_op; auto.
    - intros o Ho En. pose proof (vd_lone_anonymous _ _ _ _ _ V (named_operation nu o) (in_op nu d o Ho) En) as E. cbn in E.
      destruct (doc_ops d) as [|o1 [|o2 l]]; try discriminate E. destruct Ho as [->|[]]. auto.
    - intros o Ho Et. destruct (vd_single_root _ _ _ _ _ V (named_operation nu o) (in_op nu d o Ho) Et) as (x & Hx). exists x. intros y. rewrite <- Hx. split; intros H.
      + apply root_response_named. auto.
      + apply root_response_back. auto.
    - pose proof (document_ok_named S nu' _ (vd_selections _ _ _ _ _ V)) as H. rewrite (document_back nu nu' I) in H. auto.
    - intros r t sels H x y Cx Cy E. destruct (vd_merge _ _ _ _ _ V r t _ (set_named S nu d _ _ _ H) (nfield nu x) (nfield nu y)) as (A & B); auto using collected_named.
      split; intros K; [apply A, shapes_named; auto|apply B, conflict_named; auto].
    - intros w args defs H a Ha. destruct (args_named S nu d _ _ _ H) as (args' & H' & E). assert (Hf : In (fst a) (map fst args')) by (rewrite E; apply List.in_map; auto).
      apply in_map_iff in Hf as (a' & Ea & Ha'). rewrite <- Ea. apply (vd_argument_names _ _ _ _ _ V _ _ _ H'). auto.
    - intros w args defs H. destruct (args_named S nu d _ _ _ H) as (args' & H' & E). rewrite <- E. apply (vd_argument_unique _ _ _ _ _ V _ _ _ H').
    - intros w args defs H i. destruct (args_named S nu d _ _ _ H) as (args' & H' & E). rewrite <- E. apply (vd_argument_required _ _ _ _ _ V _ _ _ H').
    - pose proof (vd_fragment_names _ _ _ _ _ V) as H. cbn in H. rewrite frag_names in H. auto.
    - intros f Hf. destruct (vd_fragment_used _ _ _ _ _ V (named_fragment nu f)) as (ds & r & O); [apply List.in_map; auto|].
      apply (occurs_in_named nu') in O. rewrite (document_back nu nu' I) in O. cbn in O. eauto.
    - intros n ds r O. apply (occurs_in_named nu) in O. apply (vd_fragment_targets _ _ _ _ _ V) in O. cbn in O. rewrite frag_names in O. auto.
    - intros n H. apply (vd_fragment_cycles _ _ _ _ _ V n). apply uses_plus_named. auto.
    - intros r t s c tc Hs Hc Ht. apply (sel_named S nu) in Hs. apply (vd_possible _ _ _ _ _ V _ _ _ c tc Hs); auto.
      destruct Hc as [(n & ds & f & -> & Hd & <-)|(ds & sub & ->)]; [left|right; cbn; eauto]. exists n, (map (named_directive nu) ds), (named_fragment nu f). split; auto.
      split; auto. apply defines_named. auto.
    - intros r a i H. apply (argument_named S nu) in H. apply (vd_values _ _ _ _ _ V) in H. apply conforms_back. auto.
    - intros a i H. apply (vd_const_values _ _ _ _ _ V). apply const_argument_named. auto.
    - intros o v x Ho Hv. apply (vd_defaults _ _ _ _ _ V (named_operation nu o) (named_variable nu v)); [apply in_op; auto|cbn; apply List.in_map; auto].
    - intros x loc H. destruct (directive_named S nu d _ _ H) as (x' & H' & <-). apply (vd_directive_defined _ _ _ _ _ V _ _ H').
    - intros x loc dd H. destruct (directive_named S nu d _ _ H) as (x' & H' & <-). apply (vd_directive_places _ _ _ _ _ V _ _ _ H').
    - intros ds [(r & loc & H)|H] i j x y dd Ei Ej E Hd Hr.
      + assert (H' : (exists r loc, directives_at S d' r (map (named_directive nu) ds) loc) \/ const_directives_at d' (map (named_directive nu) ds)) by (left; exists r, loc; apply directives_named; auto).
        apply (vd_directive_unique _ _ _ _ _ V _ H' i j (named_directive nu x) (named_directive nu y) dd); auto using map_nth_error.
      + apply (vd_directive_unique _ _ _ _ _ V ds (or_intror (const_directives_named nu d _ H)) i j x y dd); auto.
    - intros o Ho. pose proof (vd_variable_names _ _ _ _ _ V (named_operation nu o) (in_op nu d o Ho)) as H. cbn in H. rewrite map_map in H. cbn in H.
      rewrite <- (map_map vd_name nu) in H. apply NoDup_map_inv in H. auto.
    - intros o v Ho Hv. apply (vd_variable_types _ _ _ _ _ V (named_operation nu o) (named_variable nu v)); [apply in_op; auto|cbn; apply List.in_map; auto].
    - intros i o x E W. pose proof (vd_variable_defined _ _ _ _ _ V i _ (nu x) (nth_op nu d _ _ E) (writes_named nu d _ _ W)) as H. cbn in H. rewrite map_map in H.
      apply in_map_iff in H as (v & Ev & Hv). cbn in Ev. apply (f_equal nu') in Ev. rewrite !I in Ev. rewrite <- Ev. apply List.in_map. auto.
    - intros i o v E Hv. pose proof (vd_variable_used _ _ _ _ _ V i _ (named_variable nu v) (nth_op nu d _ _ E) (List.in_map _ _ _ Hv)) as H.
      apply (writes_named nu') in H. rewrite (document_back nu nu' I) in H. cbn in H. rewrite I in H. auto.
    - intros i o r v t df E H Hv U.
      apply (vd_variable_usages _ _ _ _ _ V i _ r (named_variable nu v) t df (nth_op nu d _ _ E)); [apply refers_named; auto|apply (List.in_map _ _ _ Hv)|apply used_as_named; auto].
  Qed.
End Whole.
