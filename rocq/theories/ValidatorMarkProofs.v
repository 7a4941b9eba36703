(** Every range that a converted validation error marks is the range of a part of the document, or reaches from one part to another. *)
From Coq Require Import String Lia.
From Verif Require Import Base Ast Graph Location LocationSpec ParserAt ParserAtSpec Doc DocRules DocSpec DocVariables DocVariablesSpec Merging Validator CoercionTypes CoercionSpec ResolveSpec CoercionAt ValidatorAt ValidatorAtSpec ValidatorAtProofs ValidatorErrorProofs.
Local Open Scope string_scope.
Local Open Scope list_scope.

(** all annotations of an error *)
Definition annotations (e : err) : list note := match er_primary e with Some a => [a] | None => [] end ++ er_secondary e.
(** the range of a part, or from a part to another *)
Definition of_part (ns : list node) (sp : span) : Prop := exists n, In n ns /\ sp = node_span n.
Definition of_parts (ns : list node) (sp : span) : Prop := of_part ns sp \/ exists a b, of_part ns a /\ of_part ns b /\ sp = merge a b.

(** the name of a fragment spread is a part as well; there are no selections in directives *)
Lemma value_no_selection v s : ~ In (NSelection s) (value_nodes v).
Proof.
  induction v as [v sp|vs sp IH|es sp IH] using lvalue_induction; intros [E|H]; try discriminate; try (destruct H; fail).
  - apply in_flat_map in H. destruct H as (x & Hx & H). exact (IH x Hx H).
  - apply in_flat_map in H. destruct H as (x & Hx & H). destruct H as [E|H]; [discriminate|]. destruct x as [k x]. exact (IH k x Hx H).
Qed.
Lemma arguments_no_selection args s : ~ In (NSelection s) (arguments_nodes args).
Proof.
  destruct args as [l|]; [|intros []]. intros [E|H]; [discriminate|]. apply in_flat_map in H. destruct H as (a & _ & H). destruct H as [E|[E|H]]; try discriminate. exact (value_no_selection _ _ H).
Qed.
Lemma directives_no_selection ds s : ~ In (NSelection s) (directives_nodes ds).
Proof.
  destruct ds as [[l sp]|]; [|intros []]. cbn [directives_nodes]. intros H. apply in_app_or in H as [H|H]; [destruct sp; [destruct H as [H|[]]; discriminate|destruct H]|].
  apply in_flat_map in H. destruct H as (x & _ & H). destruct H as [E|[E|H]]; try discriminate. exact (arguments_no_selection _ _ H).
Qed.
Lemma spread_name_in n ds sp : forall s, In (NSelection (LSpread n ds sp)) (selection_nodes s) -> In (NName n) (selection_nodes s).
Proof.
  assert (G : forall l, (forall s, In s l -> In (NSelection (LSpread n ds sp)) (selection_nodes s) -> In (NName n) (selection_nodes s)) ->
    In (NSelection (LSpread n ds sp)) (flat_map selection_nodes l) -> In (NName n) (flat_map selection_nodes l)).
  { intros l K Hin. apply in_flat_map in Hin. destruct Hin as (x & Hx & Hin). apply in_flat_map. exists x. auto. }
  induction s as [al m args ds' sub sp' IH|m ds' sp'|c ds' sub sp' IH] using lselection_induction; intros H; cbn [selection_nodes] in H |- *.
  - destruct H as [E|H]; [discriminate|]. right. apply in_app_or in H as [H|H]; [destruct al; [destruct H as [H|[]]; discriminate|destruct H]|]. apply in_or_app. right.
    destruct H as [E|H]; [discriminate|]. right. apply in_app_or in H as [H|H]; [destruct (arguments_no_selection _ _ H)|]. apply in_or_app. right.
    apply in_app_or in H as [H|H]; [destruct (directives_no_selection _ _ H)|]. apply in_or_app. right. destruct sub as [[sels spx]|]; [|destruct H]. destruct H as [E|H]; [discriminate|]. right. cbn [fst sub_of] in *.
    revert H. apply G. exact IH.
  - destruct H as [E|H]; [injection E as -> _ _; right; left; reflexivity|]. destruct H as [E|H]; [discriminate|]. destruct (directives_no_selection _ _ H).
  - destruct H as [E|H]; [discriminate|]. right. apply in_app_or in H as [H|H]; [destruct c; [destruct H as [H|[]]; discriminate|destruct H]|]. apply in_or_app. right.
    apply in_app_or in H as [H|H]; [destruct (directives_no_selection _ _ H)|]. apply in_or_app. right. destruct H as [E|H]; [discriminate|]. right. destruct sub as [sels spx]. cbn [fst sub_of] in *.
    revert H. apply G. exact IH.
Qed.

Section Marks.
  Variable S : schema.
  Variable d : ldocument.
  Variable hook : name -> value -> option text.
  Variable str_enum one_of : bool.
  Notation ns := (document_nodes d).
  Notation marks := (fun a : note => of_parts ns (snd a)).
  Lemma of_node n : In n ns -> of_parts ns (node_span n).
  Proof. left. exists n. auto. Qed.
  Lemma at_place_marks m l sp : of_parts ns sp -> Forall marks (annotations (at_place m l sp)).
  Proof. intros H. constructor; [exact H|constructor]. Qed.
  Lemma at_places_marks m l (sps : list span) : (forall sp, In sp sps -> of_parts ns sp) -> Forall marks (annotations (at_places m l sps)).
  Proof. intros H. unfold annotations, at_places. cbn [er_primary er_secondary app]. apply Forall_map. cbn [snd]. apply Forall_forall. exact H. Qed.
  Lemma with_name_In {A} (key : A -> lname) n l x : In x (with_name key n l) -> In x l.
  Proof. intros H. apply filter_In in H. tauto. Qed.
  Lemma inside_nodes v t one p v' t' one' p' : inside S v t one p v' t' one' p' -> incl (value_nodes v') (value_nodes v).
  Proof.
    induction 1 as [v t one p|v inner req p v' t' one' p' _ _ IH|vs sp inner req one p i v v' t' one' p' Hn _ IH|es sp n req io i k v one p v' t' one' p' _ _ Hf _ IH]; intros x Hx.
    - exact Hx.
    - exact (IH x Hx).
    - right. apply in_flat_map. exists v. split; [exact (nth_error_In _ _ Hn)|exact (IH x Hx)].
    - right. apply find_some in Hf as (Hf & _). apply in_flat_map. exists (k, v). split; [exact Hf|]. right. exact (IH x Hx).
  Qed.
  Lemma value_head v : In (NValue v) (value_nodes v).
  Proof. destruct v; left; reflexivity. Qed.
  Lemma value_marks v p e er : incl (value_nodes v) ns -> told_value v p e er -> Forall marks (annotations er).
  Proof.
    intros H T. assert (V : of_parts ns (value_span v)) by (exact (of_node _ (H _ (value_head v)))).
    assert (K : forall es sp k x, v = LVObj es sp -> In (k, x) es -> of_part ns (snd k) /\ of_part ns (value_span x)).
    { intros es sp k x -> Hin. split; [exists (NName k)|exists (NValue x)]; (split; [|reflexivity]); apply H; right; apply in_flat_map; exists (k, x); (split; [exact Hin|]); [left; reflexivity|right; apply value_head]. }
    destruct T as [ty _|ty|n ty _|fields ty|es sp f E _|es sp f x ty E Hin|ty msg|es sp ty nulls E ->|es sp ty others E ->|ty]; try (apply at_place_marks; exact V).
    - apply at_places_marks. intros sp' Hs. apply in_map_iff in Hs. destruct Hs as ((k & x) & <- & Hx). apply with_name_In in Hx. left. exact (proj1 (K _ _ _ _ E Hx)).
    - apply at_place_marks. left. exact (proj1 (K _ _ _ _ E Hin)).
    - constructor; [exact V|]. apply Forall_map, Forall_forall. intros (k & x) Hx. apply filter_In in Hx as (Hx & _). cbn [fst snd]. right. exists (snd k), (value_span x). destruct (K _ _ _ _ E Hx). auto.
    - constructor; [exact V|]. apply Forall_map, Forall_forall. intros (k & x) Hx. apply filter_In in Hx as (Hx & _). cbn [fst snd]. right. exists (snd k), (value_span x). destruct (K _ _ _ _ E Hx). auto.
    - constructor.
  Qed.
  Lemma set_placed_nodes id s : set_placed d id s -> incl (set_nodes s) ns.
  Proof.
    induction 1 as [i o E|i f E|r path s j al n args ds sub sp _ IH Ey|r path s j c ds sub sp _ IH Ey]; intros x Hx.
    - apply (ops_nodes d o (nth_error_In _ _ E)), op_set_nodes, Hx.
    - apply (frags_nodes d f (nth_error_In _ _ E)). right. right. right. apply in_or_app. right. exact Hx.
    - apply IH. right. apply in_flat_map. eexists. split; [exact (nth_error_In _ _ Ey)|]. cbn [selection_nodes]. right. apply in_or_app. right. right. apply in_or_app. right. apply in_or_app. right. exact Hx.
    - apply IH. right. apply in_flat_map. eexists. split; [exact (nth_error_In _ _ Ey)|]. cbn [selection_nodes]. right. apply in_or_app. right. apply in_or_app. right. exact Hx.
  Qed.
  Lemma stands_at_nodes x n : stands_at d x n -> In (NName n) ns.
  Proof.
    intros (r & path & j & s & al & args & ds & sub & sp & _ & Hs & Hj & _). apply (set_placed_nodes _ _ Hs). right. apply in_flat_map. eexists. split; [exact (nth_error_In _ _ Hj)|].
    cbn [selection_nodes]. right. apply in_or_app. right. left. reflexivity.
  Qed.
  Lemma merge_marks e er : told_merge S d e er -> Forall marks (annotations er).
  Proof.
    intros [e' why la lb id a b s na nb _ Hs Ha Hb _]. constructor; [|constructor; [|constructor; [|constructor]]]; cbn [snd].
    - apply (of_node (NSet s)). apply (set_placed_nodes _ _ Hs). left. reflexivity.
    - apply (of_node (NName na)), (stands_at_nodes a), Ha.
    - apply (of_node (NName nb)), (stands_at_nodes b), Hb.
  Qed.
  Lemma field_name_nodes r al n args ds sub fd : field_on S d r al n args ds sub fd -> In (NName n) ns.
  Proof. intros (t & sp & H & _). apply (selected_nodes _ _ _ _ _ H). cbn [selection_nodes]. right. apply in_or_app. right. left. reflexivity. Qed.
  Lemma set_head o : In o (lops d) -> In (NSet (lop_set o)) ns.
  Proof. intros H. apply (ops_nodes _ _ H), op_set_nodes. left. reflexivity. Qed.
  Lemma type_head t : exists rest, type_nodes t = NType t :: rest.
  Proof. destruct t; eexists; reflexivity. Qed.
  Lemma stands_nodes l v x l' : stands S l v x l' -> exists y, In (NValue y) (value_nodes v) /\ value_span y = snd x.
  Proof.
    induction 1 as [l n sp|l inner req vs sp v x l' _ Hin _ (y & Hy & E)|l i io es sp k v f x l' _ _ Hin _ _ (y & Hy & E)].
    - eexists. split; [left; reflexivity|reflexivity].
    - exists y. split; [|exact E]. right. apply in_flat_map. eauto.
    - exists y. split; [|exact E]. right. apply in_flat_map. exists (k, v). split; [exact Hin|]. right. exact Hy.
  Qed.
  Theorem told_marks e er : told S d hook str_enum one_of e er -> Forall marks (annotations er).
  Proof.
    destruct 1 as [n _|_ _|o Ho _|r t al n args ds sub sp H _|e er H|ty sp n vs ds sub sp' Ho _|r al n args ds sub fd H _ _|r al n args ds sub fd H _ _|r o args a H Ha _|r o args n H _
      |r al n args ds sub fd missing H _ _|r x loc dd missing H _ _ _|n _|f Hf _|r t c ds sub sp H _|f t Hf _ _|r t c ds sub sp t' H _ _|f Hf|r t n ds sp H _|f g n ds sp Hf Hg _ Hn _
      |r t n ds sp H|r t c ds sub sp H|v0 t0 v t one p e er Hx Hi _ Hv|r x loc H _|r x loc dd H _ _|r ds loc n dd H _ _ _|o n Ho _|o v Ho Hv _|i o r a iv x _ _ H Hx _|i o v Ho Hv|i o r a iv x v l _ _ H Hst _ _ _].
    - apply at_places_marks. intros sp Hsp. unfold name_spans in Hsp. apply in_flat_map in Hsp. destruct Hsp as (o & Ho & Hsp). apply filter_In in Ho as (Ho & _).
      destruct o as [ty sp0 m vs ds sub sp'|sub]; [|destruct Hsp]. cbn [lop_name] in Hsp. destruct m as [m|]; [|destruct Hsp]. destruct Hsp as [<-|[]].
      apply (of_node (NName m)), (ops_nodes _ _ Ho). cbn. auto.
    - apply at_places_marks. intros sp Hsp. apply in_map_iff in Hsp. destruct Hsp as (o & <- & Ho). apply filter_In in Ho as (Ho & _). exact (of_node _ (set_head o Ho)).
    - apply at_place_marks. exact (of_node _ (set_head o Ho)).
    - apply at_place_marks, (of_node (NName n)), (selected_nodes _ _ _ _ _ H). cbn [selection_nodes]. right. apply in_or_app. right. left. reflexivity.
    - exact (merge_marks _ _ H).
    - apply at_place_marks, (of_node (NOptype ty sp)), (ops_nodes _ _ Ho). right. left. reflexivity.
    - destruct H as (t & sp & H & _). apply at_place_marks, (of_node (NSet sub)), (selected_nodes _ _ _ _ _ H). cbn [selection_nodes]. right. apply in_or_app. right. right. apply in_or_app. right. apply in_or_app. right. left. reflexivity.
    - apply at_place_marks, (of_node (NName n)). exact (field_name_nodes _ _ _ _ _ _ _ H).
    - apply at_place_marks, (of_node (NName (la_name a))), (arguments_in_nodes _ _ _ _ _ H), in_flat_map. exists a. split; [exact Ha|right; left; reflexivity].
    - apply at_places_marks. intros sp Hsp. apply in_map_iff in Hsp. destruct Hsp as (a & <- & Ha). apply with_name_In in Ha. apply (of_node (NName (la_name a))), (arguments_in_nodes _ _ _ _ _ H), in_flat_map. exists a. split; [exact Ha|right; left; reflexivity].
    - apply at_place_marks. pose proof (field_name_nodes _ _ _ _ _ _ _ H) as N. destruct args as [l|]; [|exact (of_node (NName n) N)]. right. exists (snd n), (snd l). split; [exists (NName n); auto|]. split; [|reflexivity].
      exists (NArguments l). split; [|reflexivity]. destruct H as (t & sp & H & _). apply (selected_nodes _ _ _ _ _ H). cbn [selection_nodes]. right. apply in_or_app. right. right. left. reflexivity.
    - apply at_place_marks, (of_node (NDirective x)), (directive_in_nodes _ _ _ _ _ H). left. reflexivity.
    - apply at_places_marks. intros sp Hsp. apply in_map_iff in Hsp. destruct Hsp as (f & <- & Hf). apply with_name_In in Hf. apply (of_node (NName (lf_name f))), (frags_nodes _ _ Hf). right. left. reflexivity.
    - apply at_place_marks, (of_node (NName (lf_cond f))), (frags_nodes _ _ Hf). right. right. left. reflexivity.
    - apply at_place_marks, (of_node (NName c)), (selected_nodes _ _ _ _ _ H). right. left. reflexivity.
    - apply at_place_marks, (of_node (NName (lf_cond f))), (frags_nodes _ _ Hf). right. right. left. reflexivity.
    - apply at_place_marks, (of_node (NName c)), (selected_nodes _ _ _ _ _ H). right. left. reflexivity.
    - apply at_place_marks, (of_node (NName (lf_name f))), (frags_nodes _ _ Hf). right. left. reflexivity.
    - apply at_place_marks, (of_node (NName n)), (selected_nodes _ _ _ _ _ H). right. left. reflexivity.
    - constructor; [|constructor; [|constructor]]; cbn [snd].
      + apply (of_node (NName n)), (frags_nodes _ _ Hg). clear - Hn.
        assert (K : forall s, In (NSelection (LSpread n ds sp)) (selection_nodes s) -> In (NName n) (selection_nodes s)).
        { apply (spread_name_in n ds sp). }
        destruct Hn as [E|[E|[E|Hn]]]; try discriminate. right. right. right. apply in_app_or in Hn as [Hn|Hn]; apply in_or_app; [left|right].
        * exfalso. exact (directives_no_selection _ _ Hn).
        * destruct Hn as [E|Hn]; [discriminate|]. right. apply in_flat_map in Hn. destruct Hn as (s & Hs & Hn). apply in_flat_map. exists s. split; [exact Hs|exact (K s Hn)].
      + apply (of_node (NName (lf_name f))), (frags_nodes _ _ Hf). right. left. reflexivity.
    - apply at_place_marks, (of_node (NName n)), (selected_nodes _ _ _ _ _ H). right. left. reflexivity.
    - apply at_place_marks, (of_node (NSelection (LInline (Some c) ds sub sp))), (selected_nodes _ _ _ _ _ H). left. reflexivity.
    - apply (value_marks v p e er); [|exact Hv]. intros y Hy. apply (expects_nodes _ _ _ _ Hx), (inside_nodes _ _ _ _ _ _ _ _ Hi), Hy.
    - apply at_place_marks, (of_node (NName (ld_name x))), (directive_in_nodes _ _ _ _ _ H). right. left. reflexivity.
    - apply at_place_marks, (of_node (NDirective x)), (directive_in_nodes _ _ _ _ _ H). left. reflexivity.
    - apply at_places_marks. intros sp Hsp. apply in_map_iff in Hsp. destruct Hsp as (x & <- & Hx). apply with_name_In in Hx. apply (of_node (NDirective x)), (applied_nodes _ _ _ _ _ H), in_flat_map. exists x. split; [exact Hx|left; reflexivity].
    - apply at_places_marks. intros sp Hsp. apply in_map_iff in Hsp. destruct Hsp as (v & <- & Hv). apply with_name_In in Hv. apply (of_node (NVariable (lvd_name v))), (ops_nodes _ _ Ho), (vars_nodes _ _ Hv). left. reflexivity.
    - apply at_place_marks. assert (I : In (NType (lvd_type v)) ns).
      { apply (ops_nodes _ _ Ho), (vars_nodes _ _ Hv). right. apply in_or_app. left. destruct (type_head (lvd_type v)) as (rest & ->). left. reflexivity. }
      pose proof (of_node _ I) as Q. destruct (lvd_type v); exact Q.
    - apply at_place_marks, (of_node (NValue (LVLeaf (VVar (fst x)) (snd x)))), (given_nodes _ _ _ _ _ H). right. right. exact Hx.
    - apply at_place_marks, (of_node (NVariable (lvd_name v))), (ops_nodes _ _ (nth_error_In _ _ Ho)), (vars_nodes _ _ Hv). left. reflexivity.
    - apply at_place_marks. destruct (stands_nodes _ _ _ _ Hst) as (y & Hy & <-). apply (of_node (NValue y)), (given_nodes _ _ _ _ _ H). right. right. exact Hy.
  Qed.
End Marks.

(** * With a schema whose arguments and input fields have input types, every error is told with a message and a mark *)
Section Noted.
  Variable S : schema.
  Variable d : ldocument.
  Variable hook : name -> value -> option text.
  Variable str_enum one_of : bool.
  Definition input_typed (t : tref) : Prop := exists u, get_type S (tref_base t) = Some u /\ td_is_input u = true.
  Hypothesis inputs : forall v, value_defined (s_types S) (s_ddefs S) v -> input_typed (iv_type v).
  Lemma at_type_In r sels t : at_type S d r sels t -> In t (s_types S).
  Proof.
    induction 1 as [i o t _ H|i f t _ H|r sels t al n args ds sub sp fd t' _ _ _ _ H|r sels t ds sub sp _ IH _|r sels t c ds sub sp t' _ _ _ H]; try exact (proj1 (get_type_Some _ _ _ H)); [|exact IH].
    destruct (lop_type o); cbn in H; [|destruct H as (n & _ & H)|destruct H as (n & _ & H)]; exact (proj1 (get_type_Some _ _ _ H)).
  Qed.
  Lemma arguments_defined r o args : arguments_in S d r (Some o) args -> forall i, In i (owner_args o) -> value_defined (s_types S) (s_ddefs S) i.
  Proof.
    intros H. remember (Some o) as oo eqn:E. destruct H as [r al n args ds sub fd (t & sp & (sels & Hs & _) & Hf)|r x loc _].
    - injection E as <-. intros i Hi. apply get_field_Some in Hf as (Hf & _). exact (vd_argument _ _ t fd i (at_type_In _ _ _ Hs) Hf Hi).
    - destruct (get_ddef S (fst (ld_name x))) as [dd|] eqn:Ed; [|discriminate]. injection E as <-. intros i Hi. unfold get_ddef in Ed. apply find_some in Ed as (Ed & _). exact (vd_directive_argument _ _ dd i Ed Hi).
  Qed.
  Lemma expects_input v t : expects S d v t -> input_typed t.
  Proof using inputs.
    destruct 1 as [r a i (o & args & H & _ & Hi)|o v x t _ _ _ E1 E2]; [|exists t; auto].
    apply inputs. apply get_ivd_Some in Hi as (Hi & _). exact (arguments_defined _ _ _ H i Hi).
  Qed.
  Lemma inside_input v t one p v' t' one' p' : inside S v t one p v' t' one' p' -> input_typed t -> input_typed t'.
  Proof using inputs.
    induction 1 as [v t one p|v inner req p v' t' one' p' _ _ IH|vs sp inner req one p i v v' t' one' p' _ _ IH|es sp n req io i k v one p v' t' one' p' Ht Hi _ _ IH]; intros K; auto.
    apply IH, inputs. exact (vd_input_field _ _ io i (proj1 (get_type_Some _ _ _ Ht)) Hi).
  Qed.
  Theorem told_noted e er : told S d hook str_enum one_of e er -> reported (er_primary er) (er_secondary er) <> [].
  Proof using inputs.
    assert (P : forall m l sp, reported (er_primary (at_place m l sp)) (er_secondary (at_place m l sp)) <> []) by (intros m l sp; discriminate).
    assert (Q : forall A (f : A -> span) m l xs, 1 <= length xs -> reported (er_primary (at_places m l (map f xs))) (er_secondary (at_places m l (map f xs))) <> []).
    { intros A f m l xs L. destruct xs; [cbn in L; lia|discriminate]. }
    destruct 1 as [n L|N _|o Ho _|r t al n args ds sub sp H _|e er H|ty sp n vs ds sub sp' Ho _|r al n args ds sub fd H _ _|r al n args ds sub fd H _ _|r o args a H Ha _|r o args n H L
      |r al n args ds sub fd missing H _ _|r x loc dd missing H _ _ _|n L|f Hf _|r t c ds sub sp H _|f t Hf _ _|r t c ds sub sp t' H _ _|f Hf|r t n ds sp H _|f g n ds sp Hf Hg _ Hn _
      |r t n ds sp H|r t c ds sub sp H|v0 t0 v t one p e er Hx Hi Ho Hv|r x loc H _|r x loc dd H _ _|r ds loc n dd H _ _ L|o n Ho L|o v Ho Hv _|i o r a iv x _ _ H Hx _|i o v Ho Hv|i o r a iv x v l _ _ H Hst _ _ _].
    all: try (apply P).
    all: try (apply Q; lia).
    - assert (Z : name_spans (filter (op_named n) (lops d)) <> []).
      { destruct (filter (op_named n) (lops d)) as [|o l] eqn:E; [cbn in L; lia|]. assert (K : In o (filter (op_named n) (lops d))) by (rewrite E; left; reflexivity). apply filter_In in K as (_ & K).
        unfold op_named in K. unfold name_spans. cbn [flat_map]. destruct (lop_name o); discriminate. }
      unfold at_places. cbn [er_primary er_secondary reported]. destruct (name_spans (filter (op_named n) (lops d))); [congruence|discriminate].
    - apply Q. destruct (filter anonymous (lops d)); [congruence|cbn; lia].
    - destruct H as [e why la lb id a b s na nb _ _ _ _ _]. discriminate.
    - discriminate.
    - pose proof (inside_input _ _ _ _ _ _ _ _ Hi (expects_input _ _ Hx)) as I.
      destruct Hv as [ty E|ty|n ty E|fields ty|es sp f E L|es sp f x ty E Hin|ty msg|es sp ty nulls E En|es sp ty others E Eo|ty]; try (apply P); try discriminate.
      + apply Q. exact (Nat.le_trans _ _ _ (le_S _ _ (le_n 1)) L).
      + exfalso. inversion Ho as [| | | | | | | | | | | |a n r w p' Hc Hn]; subst. destruct I as (u & Eu & Iu). rewrite (Hn u Eu) in Iu. discriminate.
  Qed.
End Noted.
