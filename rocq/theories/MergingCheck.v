(** Decision procedures for the hypotheses and conclusions of the theorems on field selection merging, to show that concrete
    cases meet them. They are independent of the rule. *)
From Verif Require Import Base Ast Graph Maps Doc DocSpec DocProofs DocTypingProofs DocRulesSpec FragmentCycles FragmentsSpec FragmentCyclesProofs CyclesProps ValueEq ValueEqSpec ValueEqProofs
  Merging MergingSpec MergingTermination MergingProofs MergingSound MergingComplete MergingProps.

Section Check.
  Variable S : schema.
  Variable d : document.

  Definition all_of {A B} (f : A -> option (list B)) (l : list A) : option (list B) :=
    fold_right (fun a acc => match f a, acc with Some x, Some y => Some (x ++ y) | _, _ => None end) (Some []) l.
  Lemma all_of_In {A B} (f : A -> option (list B)) l r a : all_of f l = Some r -> In a l -> exists x, f a = Some x /\ incl x r.
  Proof.
    revert r. induction l as [|b l IH]; intros r E; [intros []|]. cbn in E. destruct (f b) as [x|] eqn:Eb; [|discriminate].
    fold (all_of f l) in E. destruct (all_of f l) as [y|] eqn:El; [|discriminate]. injection E as <-. intros [->|H].
    - exists x. split; auto. apply incl_appl, incl_refl.
    - destruct (IH y eq_refl H) as (z & Hz & Hi). exists z. split; auto. apply incl_appr; auto.
  Qed.

  Fixpoint nodes (fuel : nat) (t : tdef) (sels : list selection) : option (list sfield) :=
    match fuel with
    | 0 => None
    | Datatypes.S k =>
        all_of (fun s => match s with
          | SField al n args ds sub =>
              match get_field (td_fields t) n with
              | Some fd => Some [{| sf_alias := al; sf_name := n; sf_args := args; sf_sub := sub; sf_def := fd; sf_parent := t |}]
              | None => Some []
              end
          | SInline None _ sub => nodes k t sub
          | SInline (Some c) _ sub => match get_type S c with Some t1 => nodes k t1 sub | None => Some [] end
          | SSpread n _ =>
              match fragment_named d n with
              | Some (_, f) => match get_type S (fr_cond f) with Some t1 => nodes k t1 (fr_sel f) | None => Some [] end
              | None => Some []
              end
          end) sels
    end.
  Lemma nodes_all t sels x : collected S d t sels x -> forall fuel l, nodes fuel t sels = Some l -> In x l.
  Proof.
    induction 1 as [t sels al n args ds sub fd Hi Hf|t sels ds sub x Hi H IH|t sels c ds sub t1 x Hi Ht H IH|t sels n ds f t1 x Hi Hd Ht H IH];
      intros [|k] l E; try discriminate; cbn [nodes] in E; destruct (all_of_In _ _ _ _ E Hi) as (y & Ey & Hincl); cbn in Ey; apply Hincl.
    - unfold has_field in Hf. rewrite Hf in Ey. injection Ey as <-. left; auto.
    - eapply IH; eauto.
    - rewrite Ht in Ey. eapply IH; eauto.
    - apply fragment_named_iff in Hd as [i Hd]. rewrite Hd, Ht in Ey. eapply IH; eauto.
  Qed.
  Definition children (fuel : nat) (x : sfield) : option (list sfield) :=
    match get_type S (tref_base (fd_type (sf_def x))) with Some t => nodes fuel t (sf_sub x) | None => Some [] end.
  Lemma children_all fuel x l y : children fuel x = Some l -> below S d x y -> In y l.
  Proof. unfold children. intros E (t & Ht & Hc). rewrite Ht in E. eapply nodes_all; eauto. Qed.

  Definition each_pair (fuel : nat) (ok : sfield -> sfield -> bool) (x y : sfield) : bool :=
    match children fuel x, children fuel y with
    | Some a, Some b => forallb (fun p => forallb (fun q => negb (teqb (sf_key p) (sf_key q)) || ok p q) (a ++ b)) (a ++ b)
    | _, _ => false
    end.
  Lemma each_pair_merged fuel ok x y x' y' : each_pair fuel ok x y = true -> merged S d x y x' y' -> ok x' y' = true.
  Proof.
    unfold each_pair. destruct (children fuel x) as [a|] eqn:Ea; [|discriminate]. destruct (children fuel y) as [b|] eqn:Eb; [|discriminate].
    intros E (H1 & H2 & Hk).
    assert (Hx : In x' (a ++ b)) by (apply in_app_iff; destruct H1; [left|right]; eapply children_all; eauto).
    assert (Hy : In y' (a ++ b)) by (apply in_app_iff; destruct H2; [left|right]; eapply children_all; eauto).
    rewrite forallb_forall in E. specialize (E _ Hx). rewrite forallb_forall in E. specialize (E _ Hy).
    rewrite Hk in E. rewrite (proj2 (teqb_eq _ _) eq_refl) in E. exact E.
  Qed.
  Fixpoint shapes_ok (fuel : nat) (x y : sfield) : bool :=
    match fuel with
    | 0 => false
    | Datatypes.S k => same_type_shape S (fd_type (sf_def x)) (fd_type (sf_def y)) && each_pair k (shapes_ok k) x y
    end.
  Lemma shapes_ok_none x y : shapes_conflict S d x y -> forall fuel, shapes_ok fuel x y = false.
  Proof.
    induction 1 as [x y H|x y x' y' Hm H IH]; intros [|k]; auto; cbn [shapes_ok].
    - destruct (same_type_shape S _ _) eqn:E; auto. exfalso. apply H. apply same_type_shape_iff; auto.
    - destruct (each_pair k (shapes_ok k) x y) eqn:E; [|apply andb_false_r].
      exfalso. pose proof (each_pair_merged _ _ _ _ _ _ E Hm) as K. rewrite (IH k) in K. discriminate.
  Qed.

  Variable unions : bool.
  Definition meets (x y : sfield) : bool :=
    (unions || match sf_parent x, sf_parent y with DUnion _, _ | _, DUnion _ => false | _, _ => true end) &&
    match sf_parent x, sf_parent y with DObject a, DObject b => teqb (ob_name a) (ob_name b) | _, _ => true end.
  Definition meet (x y : sfield) : Prop := if unions then can_meet x y else can_meet_not_union x y.
  Lemma meets_ok x y : meet x y -> meets x y = true.
  Proof.
    unfold meet, meets, can_meet_not_union, can_meet. destruct unions; cbn [orb].
    - intros H. cbn. destruct (sf_parent x), (sf_parent y); auto. cbn in H. apply teqb_eq. tauto.
    - intros (H & H1 & H2). destruct (sf_parent x), (sf_parent y); cbn in *; auto; try tauto. apply teqb_eq. tauto.
  Qed.
  Definition flat (args : list argument) : bool :=
    forallb (fun a => match snd a with VInt _ | VStr _ | VBool _ | VVar _ | VNull | VEnum _ => true | _ => false end) args.
  Lemma flat_plain args : flat args = true -> args_plain args.
  Proof.
    intros H. unfold flat in H. rewrite forallb_forall in H. split; constructor; apply Forall_forall; intros a Ha; specialize (H a Ha); destruct (snd a); try discriminate; constructor.
  Qed.
  Fixpoint selections_ok (fuel : nat) (x y : sfield) : bool :=
    match fuel with
    | 0 => false
    | Datatypes.S k =>
        negb (meets x y) ||
        (teqb (sf_name x) (sf_name y) && (flat (sf_args x) && flat (sf_args y) && arguments_equivalent (sf_args x) (sf_args y)) && each_pair k (selections_ok k) x y)
    end.
  Lemma selections_ok_none x y : selections_conflict S d meet x y -> forall fuel, selections_ok fuel x y = false.
  Proof.
    induction 1 as [x y Hmt H|x y Hmt H|x y x' y' Hmt Hm H IH]; intros [|k]; auto; cbn [selections_ok]; rewrite (meets_ok _ _ Hmt); cbn [negb orb].
    - destruct (teqb (sf_name x) (sf_name y)) eqn:E; auto. apply teqb_eq in E. contradiction.
    - destruct (flat (sf_args x)) eqn:Fx; [|rewrite !andb_false_r; auto]. destruct (flat (sf_args y)) eqn:Fy; [|rewrite !andb_false_r; auto].
      destruct (arguments_equivalent (sf_args x) (sf_args y)) eqn:E; [|rewrite !andb_false_r; auto]. exfalso. apply H. apply args_equivalent_iff; auto using flat_plain.
    - destruct (each_pair k (selections_ok k) x y) eqn:E; [|apply andb_false_r].
      exfalso. pose proof (each_pair_merged _ _ _ _ _ _ E Hm) as K. rewrite (IH k) in K. discriminate.
  Qed.

  Definition mergeable (fuel : nat) : bool :=
    forallb (fun e => match nodes fuel (snd e) (snd (fst e)) with
                      | Some l => forallb (fun x => forallb (fun y => negb (teqb (sf_key x) (sf_key y)) || shapes_ok fuel x y && selections_ok fuel x y) l) l
                      | None => false
                      end) (document_sets S d).
  Lemma mergeable_ok fuel : mergeable fuel = true -> document_can_merge S d meet.
  Proof.
    intros H r t sels Hs x y Hx Hy Hk. destruct (set_at_lexical S d _ _ _ Hs) as [p Hl]. apply lexical_document_sets in Hl as [Hl _].
    unfold mergeable in H. rewrite forallb_forall in H. specialize (H _ Hl). cbn [fst snd] in H. destruct (nodes fuel t sels) as [l|] eqn:E; [|discriminate].
    rewrite forallb_forall in H. specialize (H x (nodes_all _ _ _ Hx _ _ E)). rewrite forallb_forall in H. specialize (H y (nodes_all _ _ _ Hy _ _ E)).
    rewrite (proj2 (teqb_eq _ _) Hk) in H. cbn [negb orb] in H. apply andb_prop in H as [H1 H2].
    split; intros K; [rewrite (shapes_ok_none _ _ K) in H1|rewrite (selections_ok_none _ _ K) in H2]; discriminate.
  Qed.

  (** ** the hypotheses *)
  Fixpoint flat_sel (s : selection) : bool :=
    match s with
    | SField _ _ args _ sub => flat args && forallb flat_sel sub
    | SInline _ _ sub => forallb flat_sel sub
    | SSpread _ _ => true
    end.
  Definition flat_doc : bool := forallb (fun o => forallb flat_sel (op_sel o)) (doc_ops d) && forallb (fun f => forallb flat_sel (fr_sel f)) (doc_frags d).
  Lemma occurs_flat s sels : occurs s sels -> forallb flat_sel sels = true -> flat_sel s = true.
  Proof.
    induction 1 as [sels Hi|sels al n args ds sub Hi H IH|sels c ds sub Hi H IH]; intros E; rewrite forallb_forall in E; specialize (E _ Hi); auto.
    cbn in E. apply andb_prop in E as [_ E]. auto.
  Qed.
  Lemma flat_doc_ok : flat_doc = true -> plain_numbers d.
  Proof.
    unfold flat_doc. intros H. apply andb_prop in H as [H1 H2]. rewrite forallb_forall in H1, H2. intros r al n args ds sub Ho. apply flat_plain.
    assert (K : flat_sel (SField al n args ds sub) = true).
    { inversion Ho as [i o Hn Hocc|i f Hn Hocc]; subst; apply nth_error_In in Hn; eapply occurs_flat; eauto. }
    cbn in K. apply andb_prop in K. tauto.
  Qed.
  Lemma acyclic_ok : fragment_cycle_errors d = Some [] -> acyclic d.
  Proof.
    intros E n Hc. destruct (fragment_cycles_detected_exactly d) as (errs & E' & H & _). assert (errs = []) as -> by congruence.
    assert (Hf : exists f, defines d n f). { unfold on_a_cycle in Hc. inversion Hc as [? ? (f & Hf & _)|? ? ? (f & Hf & _)]; eauto. }
    destruct Hf as [f Hf]. assert (En : fr_name f = n) by (destruct Hf as (? & ? & ? & ? & ?); auto). apply (H f). rewrite En. auto.
  Qed.
  Lemma lexical_self id sels t : lexical S d id sels t -> get_type S (td_name t) = Some t.
  Proof.
    assert (Self : forall n t, get_type S n = Some t -> get_type S (td_name t) = Some t) by (intros n u E; destruct (get_type_Some _ _ _ E) as (_ & ->); auto).
    induction 1 as [r t sels Ht| | |]; eauto. inversion Ht as [i o u Hn Hr|i f u Hn Hr]; subst; eauto. destruct (op_type o); cbn in Hr; [eauto|destruct Hr as (? & ? & ?); eauto..].
  Qed.
  Definition spread_ok (t : tdef) (s : selection) : bool :=
    match s with
    | SSpread n _ =>
        match fragment_named d n with
        | Some (_, f) =>
            match get_type S (fr_cond f) with
            | Some t1 =>
                teqb (td_name t1) (td_name t) ||
                match t1 with DUnion _ => false | _ => true end &&
                forallb (fun s => match s with
                                  | SField _ n _ _ _ => match get_field (td_fields t) n, get_field (td_fields t1) n with
                                                        | Some fd, Some fd' => tref_eqb (fd_type fd) (fd_type fd')
                                                        | Some _, None => false
                                                        | None, _ => true
                                                        end
                                  | _ => false
                                  end) (fr_sel f)
            | None => true
            end
        | None => true
        end
    | _ => true
    end.
  Lemma spread_ok_simple : forallb (fun e => forallb (spread_ok (snd e)) (snd (fst e))) (document_sets S d) = true -> spreads_simple S d.
  Proof.
    intros H r t n ds f t1 (sels & Hs & Hi) Hd Ht1. destruct (set_at_lexical S d _ _ _ Hs) as [p Hl]. pose proof (lexical_self _ _ _ Hl) as Hself. apply lexical_document_sets in Hl as [Hl _].
    rewrite forallb_forall in H. specialize (H _ Hl). cbn [fst snd] in H. rewrite forallb_forall in H. specialize (H _ Hi). cbn [spread_ok] in H.
    apply fragment_named_iff in Hd as [i Hd]. rewrite Hd, Ht1 in H. apply orb_prop in H as [H|H].
    - left. apply teqb_eq in H. destruct (get_type_Some _ _ _ Ht1) as (_ & En). rewrite <- H, En in Hself. congruence.
    - right. apply andb_prop in H as [H1 H2]. rewrite forallb_forall in H2. split; [destruct t1; cbn; auto; discriminate|]. split.
      + intros s Hs'. specialize (H2 s Hs'). destruct s; try discriminate. eauto 10.
      + intros al m args ds' sub fd Hs' Hf. specialize (H2 _ Hs'). cbn in H2. unfold has_field in *. rewrite Hf in H2.
        destruct (get_field (td_fields t1) m) as [fd'|]; [|discriminate]. exists fd'. split; auto. apply tref_eqb_eq; auto.
  Qed.
  Definition agree_ok (t t' : tdef) (s : selection) : bool :=
    match s with
    | SField _ n _ _ _ => match get_field (td_fields t) n, get_field (td_fields t') n with
                          | Some fd, Some fd' => teqb (tref_base (fd_type fd)) (tref_base (fd_type fd'))
                          | Some _, None => false
                          | None, _ => true
                          end
    | _ => true
    end.
  Lemma entered_sets t t' sels : entered S d t t' sels -> (exists r sels', set_at S d r t sels') /\ exists r, set_at S d r t' sels.
  Proof.
    intros H. induction H as [r t sels Ha|t t' sels n ds f t1 H IH Hin Hd Ht|t t' sels ds sub H IH Hin]; [eauto|..]; destruct IH as [H0 [r Ha]]; (split; [exact H0|]).
    - destruct Hd as (b & a & E & _ & _). assert (Hi : nth_error (doc_frags d) (length b) = Some f) by (rewrite E, nth_error_app2, Nat.sub_diag; auto).
      exists (RFrag (length b)), t1, (fr_sel f). split; [constructor; auto|constructor].
    - exists r. eapply set_at_inline; eauto.
  Qed.
  Lemma agree_ok_agree : forallb (fun e => forallb (fun e' => forallb (agree_ok (snd e) (snd e')) (snd (fst e'))) (document_sets S d)) (document_sets S d) = true -> fields_agree S d.
  Proof.
    intros H t t' sels al n args ds sub fd He Hin Hf. destruct (entered_sets _ _ _ He) as [(r0 & sels0 & H0) [r Hs]].
    destruct (set_at_lexical S d _ _ _ H0) as [p0 Hl0]. apply lexical_document_sets in Hl0 as [Hl0 _]. destruct (set_at_lexical S d _ _ _ Hs) as [p Hl]. apply lexical_document_sets in Hl as [Hl _].
    rewrite forallb_forall in H. specialize (H _ Hl0). rewrite forallb_forall in H. specialize (H _ Hl). cbn [fst snd] in H. rewrite forallb_forall in H. specialize (H _ Hin).
    cbn [agree_ok] in H. unfold has_field in *. rewrite Hf in H. destruct (get_field (td_fields t') n) as [fd'|]; [|discriminate]. exists fd'. split; auto. apply teqb_eq; auto.
  Qed.
  Definition typename_ok (t : tdef) (s : selection) : bool :=
    match s with
    | SField al n args _ sub =>
        match t with DUnion _ => teqb n (tx "__typename") | _ => true end &&
        (negb (teqb n (tx "__typename") || match al with Some a => teqb a (tx "__typename") | None => false end) ||
         teqb n (tx "__typename") && match al, args, sub with None, [], [] => true | _, _, _ => false end)
    | _ => true
    end.
  Lemma typename_ok_plain : forallb (fun e => forallb (typename_ok (snd e)) (snd (fst e))) (document_sets S d) = true -> typename_plain S d.
  Proof.
    intros H r t al n args ds sub (sels & Hs & Hi). destruct (set_at_lexical S d _ _ _ Hs) as [p Hl]. apply lexical_document_sets in Hl as [Hl _].
    rewrite forallb_forall in H. specialize (H _ Hl). cbn [fst snd] in H. rewrite forallb_forall in H. specialize (H _ Hi). cbn [typename_ok] in H.
    apply andb_prop in H as [H1 H2]. split.
    - intros U. destruct t; try destruct U. apply teqb_eq; auto.
    - intros K. apply orb_prop in H2 as [H2|H2].
      + exfalso. apply negb_true_iff, orb_false_elim in H2 as [N1 N2]. destruct K as [K|K]; [apply teqb_neq in N1; contradiction|]. rewrite K, (proj2 (teqb_eq _ _) eq_refl) in N2. discriminate.
      + apply andb_prop in H2 as [H2 H3]. apply teqb_eq in H2. destruct al, args, sub; try discriminate. auto.
  Qed.
End Check.
