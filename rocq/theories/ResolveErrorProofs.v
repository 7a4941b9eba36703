(** Where the errors of a schema document that does not resolve are. *)
From Coq Require Import String Permutation Lia.
From Verif Require Import Base Ast Maps Lexer Parser Location DefParser DefParserSpec DefParserProofs DefParserProps ParserAt DefParserAt ParserAtSpec DefParserAtSpec Resolve ResolveAt ResolveAtSpec
  ResolveProofs ResolveAtProofs.
Local Open Scope string_scope.
Local Open Scope list_scope.

(** ** Built-in parts *)
(** the names that built-in definitions refer to *)
Definition intro_names : list name := map (fun t => fst (ltd_name t)) introspection_at.
Definition basic_names : list name := [tx "String"; tx "Boolean"].
Definition builtin_ivd (i : livd) : bool := tmem (fst (lbase (liv_type i))) basic_names && (match directives_list (liv_dirs i) with [] => true | _ => false end).
Definition builtin_fdef (f : lfdef) : bool :=
  tmem (fst (lbase (lfd_type f))) (basic_names ++ intro_names) && forallb builtin_ivd (ivds_list (lfd_args f)) && (match directives_list (lfd_dirs f) with [] => true | _ => false end).
Definition builtin_tdef (t : ltdef) : bool :=
  match t with
  | LDObject _ _ [] None fs => forallb builtin_fdef (fst fs)
  | LDEnum _ _ None vs => forallb (fun v => match lev_dirs v with None => true | _ => false end) (fst vs)
  | _ => false
  end.
Lemma introspection_builtin : forallb builtin_tdef introspection_at = true.
Proof. vm_compute. reflexivity. Qed.
Lemma field_builtin : forallb builtin_fdef [typename_at; schema_field_at; type_field_at] = true.
Proof. vm_compute. reflexivity. Qed.
Lemma ddef_builtin : forallb (fun d => forallb builtin_ivd (ivds_list (ldd_args d))) builtin_directives_at = true.
Proof. vm_compute. reflexivity. Qed.
Lemma intro_names_types : intro_names = map td_name introspection_types.
Proof. vm_compute. reflexivity. Qed.
Lemma intro_names_distinct : NoDup intro_names.
Proof. vm_compute. repeat constructor; cbn; intuition discriminate. Qed.
Lemma builtin_directives_distinct : NoDup (map (fun d => fst (ldd_name d)) builtin_directives_at).
Proof. vm_compute. repeat constructor; cbn; intuition discriminate. Qed.
Local Opaque introspection_at builtin_directives_at introspection_texts directive_texts.
Lemma tmem_In n l : tmem n l = true <-> In n l.
Proof. unfold tmem. rewrite existsb_exists. split; [intros (x & I & E); apply teqb_eq in E; congruence|]. intros I. exists n. split; [exact I|apply teqb_refl]. Qed.

Section Errors.
  Variable scalar_order : list builtin.
  Variable directive_order : list lddef.
  Hypothesis Hs : Permutation scalar_order all_builtins.
  Hypothesis Hd : Permutation directive_order builtin_directives_at.
  Variable l : list lsysdef.
  Let d := complete_at scalar_order directive_order l.
  Let T := map plain_ctype (lc_types d).
  Let D := map plain_cddef (lc_ddefs d).
  Notation types := (fst (index ct_name (lc_types d))).
  Notation ddefs := (fst (index cd_name (lc_ddefs d))).
  Let roots := query_roots_at (doc_schemas l).

  Lemma lc_types_eq : exists scalars, lc_types d = map (fun t => rooted roots (CType true false t)) introspection_at ++ map (fun t => rooted roots (CType false false t)) (doc_types l) ++ map CBuiltin scalars.
  Proof.
    unfold d, complete_at. cbn [lc_types]. fold roots. generalize introspection_at. intros intro. eexists. rewrite (map_app (rooted roots)), map_app. rewrite <- app_assoc. f_equal; [apply map_map|]. f_equal; [apply map_map|]. rewrite map_map. apply map_ext. reflexivity.
  Qed.
  Lemma type_cases t : In t (lc_types d) -> (exists b, t = CBuiltin b) \/ (exists x, In x introspection_at /\ t = rooted roots (CType true false x)) \/ (exists x, In x (doc_types l) /\ t = rooted roots (CType false false x)).
  Proof.
    destruct lc_types_eq as (sc & ->). intros H. apply in_app_or in H as [H|H]; [apply in_map_iff in H as (x & <- & I); right; left; eauto|].
    apply in_app_or in H as [H|H]; apply in_map_iff in H as (x & <- & I); [right; right|left]; eauto.
  Qed.
  Lemma own_type x : In x (doc_types l) -> In (rooted roots (CType false false x)) (lc_types d).
  Proof. intros H. destruct lc_types_eq as (sc & ->). apply in_or_app. right. apply in_or_app. left. apply in_map_iff. eauto. Qed.
  Lemma rooted_form b x : exists r, rooted roots (CType b false x) = CType b r x.
  Proof. destruct x; cbn; eauto. Qed.
  Lemma ddef_cases x : In x (lc_ddefs d) -> (exists y, In y builtin_directives_at /\ x = (true, y)) \/ (exists y, In y (doc_ddefs l) /\ x = (false, y)).
  Proof.
    unfold d, complete_at. cbn [lc_ddefs]. intros H. apply in_app_or in H as [H|H]; apply in_map_iff in H as (y & <- & I); [right; eauto|].
    left. apply filter_In in I as (I & _). exists y. split; [apply (Permutation_in _ Hd); exact I|reflexivity].
  Qed.

  (** lookups *)
  Lemma lookup_In n t : assoc n types = Some t -> In t (lc_types d) /\ ct_name t = n.
  Proof. apply index_In. Qed.
  Lemma lookup_T n t : assoc n types = Some t -> In (plain_ctype t) T /\ td_name (plain_ctype t) = n.
  Proof. intros H. apply lookup_In in H as (I & E). split; [now apply in_map|]. now rewrite ct_name_plain. Qed.
  Lemma lookup_none n : assoc n types = None -> undefined T n.
  Proof. intros H t I. apply in_map_iff in I as (x & <- & I). rewrite ct_name_plain. exact (proj1 (index_None ct_name (lc_types d) n) H x I). Qed.
  Lemma lookup_ddef_none n : assoc n ddefs = None -> forall x, In x D -> dd_name x <> n.
  Proof. intros H x I. apply in_map_iff in I as (y & <- & I). exact (proj1 (index_None cd_name (lc_ddefs d) n) H y I). Qed.

  Hypothesis U : builtins_usable T.
  Lemma builtin_there b : exists t, In t (lc_types d) /\ ct_name t = builtin_name b.
  Proof.
    unfold d, complete_at. cbn [lc_types]. set (types0 := map (CType true false) introspection_at ++ map (CType false false) (doc_types l)).
    destruct (tmem (builtin_name b) (map ct_name types0)) eqn:E.
    - apply tmem_In in E. apply in_map_iff in E as (t & E & I). exists (rooted (query_roots_at (doc_schemas l)) t). split; [|now rewrite rooted_name].
      apply in_map. apply in_or_app. now left.
    - exists (CBuiltin b). split; [|reflexivity]. apply in_map_iff. exists (CBuiltin b). split; [reflexivity|]. apply in_or_app. right. apply in_map. apply filter_In.
      split; [|now rewrite E]. apply (Permutation_in _ (Permutation_sym Hs)). destruct b; cbn; tauto.
  Qed.
  Lemma basic_found n : In n basic_names -> exists t, assoc n types = Some t /\ ct_is_input t = true /\ ct_is_output t = true.
  Proof.
    intros H. assert (B : exists b, n = builtin_name b) by (destruct H as [<-|[<-|[]]]; [exists BString|exists BBoolean]; reflexivity). destruct B as (b & ->).
    destruct (assoc (builtin_name b) types) as [t|] eqn:E.
    - exists t. split; [reflexivity|]. destruct (lookup_T _ _ E) as (I & En). rewrite <- is_input_plain, <- is_output_plain. apply (U _ I). rewrite En. destruct H as [<-|[<-|[]]]; auto.
    - destruct (builtin_there b) as (t & I & En). exfalso. exact (proj1 (index_None ct_name (lc_types d) _) E t I En).
  Qed.
  Lemma find_app {A} (f : A -> bool) a b : find f (a ++ b) = match find f a with Some x => Some x | None => find f b end.
  Proof. induction a as [|x a IH]; cbn; [reflexivity|]. destruct (f x); auto. Qed.
  Lemma intro_found n : In n intro_names -> exists t, In t introspection_at /\ fst (ltd_name t) = n /\ assoc n types = Some (rooted roots (CType true false t)).
  Proof.
    intros H. rewrite index_find. destruct lc_types_eq as (sc & ->). rewrite find_app.
    destruct (find _ (map (fun t => rooted roots (CType true false t)) introspection_at)) as [t|] eqn:E.
    - apply find_some in E as (I & E). apply teqb_eq in E. apply in_map_iff in I as (x & <- & I). exists x. split; [exact I|]. split; [|reflexivity]. rewrite rooted_name in E. exact E.
    - exfalso. apply in_map_iff in H as (x & <- & I). assert (J : In (rooted roots (CType true false x)) (map (fun t => rooted roots (CType true false t)) introspection_at)) by (apply in_map_iff; eauto).
      apply (find_none _ _ E) in J. cbn beta in J. rewrite rooted_name in J. cbn in J. now rewrite teqb_refl in J.
  Qed.
  Lemma builtin_out n : In n (basic_names ++ intro_names) -> exists t, assoc n types = Some t /\ ct_is_output t = true.
  Proof.
    intros H. apply in_app_or in H as [H|H]; [destruct (basic_found n H) as (t & E & _ & O); eauto|]. destruct (intro_found n H) as (t & I & _ & E). eexists. split; [exact E|].
    pose proof (proj1 (forallb_forall _ _) introspection_builtin t I) as B. destruct t; try discriminate B; reflexivity.
  Qed.
  Lemma no_directives o : (match directives_list o with [] => true | _ => false end) = true -> resolve_directives_at ddefs o = [].
  Proof. unfold resolve_directives_at. destruct (directives_list o); [reflexivity|discriminate]. Qed.
  Lemma builtin_ivd_silent i : builtin_ivd i = true -> resolve_ivd_at types ddefs i = [].
  Proof.
    intros H. apply andb_prop in H as (H & H'). apply tmem_In in H. unfold resolve_ivd_at. rewrite (no_directives _ H'). destruct (basic_found _ H) as (t & -> & -> & _). reflexivity.
  Qed.
  Lemma silent {A B} (f : A -> list B) (p : A -> bool) ll : (forall x, p x = true -> f x = []) -> forallb p ll = true -> flat_map f ll = [].
  Proof. intros F H. induction ll as [|x ll IH]; [reflexivity|]. cbn in *. apply andb_prop in H as (H & H'). now rewrite (F x H), IH. Qed.
  Lemma builtin_fdef_silent f : builtin_fdef f = true -> resolve_fdef_at types ddefs f = [].
  Proof.
    intros H. apply andb_prop in H as (H & H'). apply andb_prop in H as (H & H''). apply tmem_In in H. unfold resolve_fdef_at. rewrite (no_directives _ H'), (silent _ _ _ builtin_ivd_silent H'').
    destruct (builtin_out _ H) as (t & -> & ->). reflexivity.
  Qed.
  Lemma fields_silent root fs : flat_map (resolve_fdef_at types ddefs) (fields_at root fs) = flat_map (resolve_fdef_at types ddefs) fs.
  Proof.
    pose proof field_builtin as B. cbn [forallb] in B. apply andb_prop in B as (B1 & B). apply andb_prop in B as (B2 & B). apply andb_prop in B as (B3 & _).
    unfold fields_at. cbn [flat_map]. rewrite (builtin_fdef_silent _ B1), flat_map_app. cbn [app]. destruct root; [|now rewrite app_nil_r]. cbn [flat_map].
    now rewrite (builtin_fdef_silent _ B2), (builtin_fdef_silent _ B3), !app_nil_r.
  Qed.
  Lemma intro_silent t r : In t introspection_at -> resolve_tdef_at types ddefs r t = [].
  Proof.
    intros I. pose proof (proj1 (forallb_forall _ _) introspection_builtin t I) as B. destruct t as [| n d' [|? ?] [?|] fs| | | |n d' [?|] vs]; try discriminate B; cbn [resolve_tdef_at builtin_tdef] in *.
    - rewrite fields_silent, (silent _ _ _ builtin_fdef_silent B). reflexivity.
    - unfold resolve_directives_at at 1. cbn [directives_list flat_map app]. refine (silent _ _ _ _ B). intros v E. destruct (lev_dirs v); [discriminate|reflexivity].
  Qed.

  (** ** Errors and mistakes *)
  Definition explained (p : err -> Prop) (e : lderror) : Prop := exists er, error_of e = Some er /\ p er.
  Notation wrong := (wrong_reference T D l).
  Lemma Forall_flat_map' {A B} (P : B -> Prop) (f : A -> list B) ll : (forall x, In x ll -> Forall P (f x)) -> Forall P (flat_map f ll).
  Proof. intros H. apply Forall_flat_map. now apply Forall_forall. Qed.
  Lemma ticked_about n says : ticked "Referenced type `" n says = tx "Referenced type `" ++ n ++ tx says.
  Proof. reflexivity. Qed.
  Lemma directives_explained o : (forall x, In x (directives_list o) -> In x (applied l)) -> Forall (explained wrong) (resolve_directives_at ddefs o).
  Proof.
    intros H. apply Forall_flat_map'. intros x Hx. destruct (assoc _ ddefs) eqn:E; constructor; [|constructor]. eexists. split; [reflexivity|].
    apply (wr_directive _ _ _ x (H x Hx)). exact (lookup_ddef_none _ E).
  Qed.
  Lemma ivd_explained i : In i (doc_values l) -> Forall (explained wrong) (resolve_ivd_at types ddefs i).
  Proof.
    intros H. apply Forall_app. assert (Hn : In (lbase (liv_type i)) (input_names l)) by (apply in_map_iff; eauto). split.
    - destruct (assoc _ types) as [t|] eqn:E.
      + destruct (ct_is_input t) eqn:K; constructor; [|constructor]. eexists. split; [reflexivity|]. destruct (lookup_T _ _ E) as (I & En). apply (wr_input _ _ _ _ _ Hn I En). now rewrite is_input_plain.
      + constructor; [|constructor]. eexists. split; [reflexivity|]. apply (wr_missing _ _ _ _ (or_intror (or_introl Hn)) (lookup_none _ E)).
    - apply directives_explained. intros x Hx. unfold applied. apply in_or_app. right. apply in_or_app. right. apply in_or_app. left. apply in_flat_map. eauto.
  Qed.
  Lemma fdef_explained f : In f (doc_fields l) -> (forall i, In i (ivds_list (lfd_args f)) -> In i (doc_values l)) -> Forall (explained wrong) (resolve_fdef_at types ddefs f).
  Proof.
    intros H Hi. apply Forall_app. assert (Hn : In (lbase (lfd_type f)) (output_names l)) by (apply in_map_iff; eauto). split.
    - destruct (assoc _ types) as [t|] eqn:E.
      + destruct (ct_is_output t) eqn:K; constructor; [|constructor]. eexists. split; [reflexivity|]. destruct (lookup_T _ _ E) as (I & En). apply (wr_output _ _ _ _ _ Hn I En). now rewrite is_output_plain.
      + constructor; [|constructor]. eexists. split; [reflexivity|]. apply (wr_missing _ _ _ _ (or_introl Hn) (lookup_none _ E)).
    - apply Forall_app. split.
      + apply Forall_flat_map'. intros i I. apply ivd_explained. auto.
      + apply directives_explained. intros x Hx. unfold applied. apply in_or_app. right. apply in_or_app. left. apply in_flat_map. eauto.
  Qed.
  Lemma not_interface t : ct_is_interface t = false -> forall i, plain_ctype t <> DInterface i.
  Proof. destruct t as [b|b r t]; [discriminate|]. destruct t; cbn; try discriminate. Qed.
  Lemma not_object t : ct_is_object t = false -> forall o, plain_ctype t <> DObject o.
  Proof. destruct t as [b|b r t]; [discriminate|]. destruct t; cbn; try discriminate. Qed.
  Lemma interfaces_explained ns : (forall n, In n ns -> In n (interface_names l)) -> Forall (explained wrong) (resolve_interfaces_at types ns).
  Proof.
    intros H. apply Forall_flat_map'. intros n Hn. destruct (assoc _ types) as [t|] eqn:E.
    - destruct (ct_is_interface t) eqn:K; constructor; [|constructor]. eexists. split; [reflexivity|]. destruct (lookup_T _ _ E) as (I & En). apply (wr_interface _ _ _ _ _ (H n Hn) I En). now apply not_interface.
    - constructor; [|constructor]. eexists. split; [reflexivity|]. apply (wr_missing _ _ _ _ (or_intror (or_intror (or_introl (H n Hn)))) (lookup_none _ E)).
  Qed.
  Lemma own_directives t : In t (doc_types l) -> forall x, In x (type_directives t) -> In x (applied l).
  Proof. intros H x Hx. apply in_or_app. left. apply in_flat_map. eauto. Qed.
  Lemma own_fields t : In t (doc_types l) -> Forall (explained wrong) (flat_map (resolve_fdef_at types ddefs) (type_fields t)).
  Proof.
    intros H. apply Forall_flat_map'. intros f Hf. apply fdef_explained; [apply in_flat_map; eauto|]. intros i Hi. apply in_or_app. left. apply in_flat_map. exists t. split; [exact H|].
    destruct t; try destruct Hf; cbn [type_values type_fields] in *; apply in_flat_map; eauto.
  Qed.
  Lemma tdef_explained r t : In t (doc_types l) -> Forall (explained wrong) (resolve_tdef_at types ddefs r t).
  Proof.
    intros H. pose proof (own_directives t H) as HD. pose proof (own_fields t H) as HF.
    assert (HI : forall n, In n (type_interfaces t) -> In n (interface_names l)) by (intros n Hn; apply in_flat_map; eauto).
    assert (HM : forall n, In n (type_members t) -> In n (member_names l)) by (intros n Hn; apply in_flat_map; eauto).
    destruct t as [n d' ds|n d' is_ ds fs|n d' is_ ds fs|n d' ds ms|n d' ds fs|n d' ds vs]; cbn [resolve_tdef_at type_directives type_fields type_interfaces type_members] in *.
    - now apply directives_explained.
    - rewrite fields_silent. apply Forall_app; split; [exact HF|]. apply Forall_app; split; [now apply interfaces_explained|now apply directives_explained].
    - rewrite fields_silent. apply Forall_app; split; [exact HF|]. apply Forall_app; split; [now apply interfaces_explained|now apply directives_explained].
    - cbn [flat_map]. rewrite builtin_fdef_silent by reflexivity. cbn [app]. apply Forall_app; split; [|now apply directives_explained].
      apply Forall_flat_map'. intros x Hx. destruct (assoc _ types) as [t|] eqn:E.
      + destruct (ct_is_object t) eqn:K; constructor; [|constructor]. eexists. split; [reflexivity|]. destruct (lookup_T _ _ E) as (I & En). apply (wr_member _ _ _ _ _ (HM x Hx) I En). now apply not_object.
      + constructor; [|constructor]. eexists. split; [reflexivity|]. apply (wr_missing _ _ _ _ (or_intror (or_intror (or_intror (HM x Hx)))) (lookup_none _ E)).
    - apply Forall_app; split; [|now apply directives_explained]. apply Forall_flat_map'. intros i Hi. apply ivd_explained. apply in_or_app. left. apply in_flat_map. exists (LDInput n d' ds fs). auto.
    - apply Forall_app; split; [now apply directives_explained|]. apply Forall_flat_map'. intros v Hv. apply directives_explained. intros x Hx. unfold applied. do 3 (apply in_or_app; right).
      apply in_flat_map. exists (LDEnum n d' ds vs). split; [exact H|]. apply in_flat_map. eauto.
  Qed.
  Lemma all_explained : Forall (explained wrong) (resolve_all_at types ddefs).
  Proof.
    apply Forall_app. split; apply Forall_flat_map'.
    - intros t Ht. apply index_values_In in Ht. destruct (type_cases t Ht) as [(b & ->)|[(x & I & ->)|(x & I & ->)]]; [constructor| |].
      + destruct (rooted_form true x) as (r & ->). cbn [resolve_ctype_at]. rewrite (intro_silent x r I). constructor.
      + destruct (rooted_form false x) as (r & ->). cbn [resolve_ctype_at]. now apply tdef_explained.
    - intros x Hx. apply index_values_In in Hx. destruct (ddef_cases x Hx) as [(y & I & ->)|(y & I & ->)]; cbn [snd].
      + rewrite (silent _ _ _ builtin_ivd_silent (proj1 (forallb_forall _ _) ddef_builtin y I)). constructor.
      + apply Forall_flat_map'. intros i Hi. apply ivd_explained. apply in_or_app. right. apply in_flat_map. eauto.
  Qed.

  (** ** Names defined more than once *)
  Lemma scalars_added : exists scalars, lc_types d = map (fun t => rooted roots (CType true false t)) introspection_at ++ map (fun t => rooted roots (CType false false t)) (doc_types l) ++ map CBuiltin scalars /\
    NoDup scalars /\ forall b t, In b scalars -> In t introspection_at \/ In t (doc_types l) -> fst (ltd_name t) <> builtin_name b.
  Proof.
    unfold d, complete_at. cbn [lc_types]. fold roots. generalize introspection_at. intros intro. eexists. rewrite (map_app (rooted roots)), map_app. rewrite <- app_assoc. split; [|split].
    - f_equal; [apply map_map|]. f_equal; [apply map_map|]. rewrite map_map. apply map_ext. reflexivity.
    - apply NoDup_filter. apply (Permutation_NoDup (Permutation_sym Hs)). repeat constructor; cbn; intuition discriminate.
    - intros b t Hb Ht E. apply filter_In in Hb as (_ & Hb). apply Bool.negb_true_iff in Hb. rewrite <- Bool.not_true_iff_false in Hb. apply Hb. apply tmem_In. rewrite <- E. rewrite map_app, !map_map.
      destruct Ht as [Ht|Ht]; apply in_or_app; [left|right]; apply in_map_iff; exists t; auto.
  Qed.
  Lemma filter_map' {A B} (f : A -> B) (p : B -> bool) ll : filter p (map f ll) = map f (filter (fun x => p (f x)) ll).
  Proof. induction ll as [|x ll IH]; [reflexivity|]. cbn. rewrite IH. now destruct (p (f x)). Qed.
  Lemma filter_ext' {A} (p q : A -> bool) ll : (forall x, p x = q x) -> filter p ll = filter q ll.
  Proof. intros H. induction ll as [|x ll IH]; [reflexivity|]. cbn. rewrite IH, H. reflexivity. Qed.
  Definition intro_named (n : name) : list ltdef := filter (fun t => teqb (fst (ltd_name t)) n) introspection_at.
  Lemma types_with n : exists scalars,
    filter (fun t => teqb (ct_name t) n) (lc_types d) = map (fun t => rooted roots (CType true false t)) (intro_named n) ++ map (fun t => rooted roots (CType false false t)) (types_named n l) ++ map CBuiltin scalars /\
    (scalars = [] \/ length scalars = 1 /\ intro_named n = [] /\ types_named n l = []).
  Proof.
    destruct scalars_added as (sc & E & ND & H). rewrite E. exists (filter (fun b => teqb (builtin_name b) n) sc). split.
    - rewrite !filter_app, !filter_map'. unfold intro_named, types_named.
      rewrite (filter_ext' (fun x => teqb (ct_name (rooted roots (CType true false x))) n) (fun t => teqb (fst (ltd_name t)) n)) by (intros x; now rewrite rooted_name).
      rewrite (filter_ext' (fun x => teqb (ct_name (rooted roots (CType false false x))) n) (fun t => teqb (fst (ltd_name t)) n)) by (intros x; now rewrite rooted_name). reflexivity.
    - destruct (filter (fun b => teqb (builtin_name b) n) sc) as [|b bs] eqn:F; [now left|]. right.
      assert (Hb : In b sc /\ builtin_name b = n). { assert (I : In b (filter (fun b => teqb (builtin_name b) n) sc)) by (rewrite F; now left). apply filter_In in I as (I & E'). now apply teqb_eq in E'. }
      destruct Hb as (Hb & <-). split; [|split].
      + destruct bs as [|b' bs]; [reflexivity|]. exfalso. assert (I : In b' (filter (fun x => teqb (builtin_name x) (builtin_name b)) sc)) by (rewrite F; right; now left). apply filter_In in I as (I & E').
        apply teqb_eq in E'. assert (b = b') by (destruct b, b'; solve [reflexivity|discriminate E']). subst b'. pose proof (NoDup_filter (fun x => teqb (builtin_name x) (builtin_name b)) ND) as N. rewrite F in N. inversion_clear N as [|? ? N' _]. apply N'. now left.
      + unfold intro_named. destruct (filter _ introspection_at) as [|t ts] eqn:G; [reflexivity|]. exfalso. assert (I : In t (filter (fun t => teqb (fst (ltd_name t)) (builtin_name b)) introspection_at)) by (rewrite G; now left).
        apply filter_In in I as (I & E'). apply teqb_eq in E'. exact (H b t Hb (or_introl I) E').
      + unfold types_named. destruct (filter _ (doc_types l)) as [|t ts] eqn:G; [reflexivity|]. exfalso. assert (I : In t (filter (fun t => teqb (fst (ltd_name t)) (builtin_name b)) (doc_types l))) by (rewrite G; now left).
        apply filter_In in I as (I & E'). apply teqb_eq in E'. exact (H b t Hb (or_intror I) E').
  Qed.
  Lemma intro_once n : (introspection_name n /\ exists t, intro_named n = [t]) \/ (~ introspection_name n /\ intro_named n = []).
  Proof.
    unfold introspection_name. rewrite <- intro_names_types. destruct (intro_named n) as [|t ts] eqn:E.
    - right. split; [|reflexivity]. intros I. apply in_map_iff in I as (t & Et & I). assert (J : In t (intro_named n)) by (apply filter_In; split; [exact I|]; rewrite Et; apply teqb_refl). rewrite E in J. destruct J.
    - left. assert (I : In t (intro_named n)) by (rewrite E; now left). apply filter_In in I as (I & Et). apply teqb_eq in Et. split; [apply in_map_iff; eauto|]. exists t. f_equal.
      destruct ts as [|t' ts]; [reflexivity|]. exfalso. pose proof (f_equal (map (fun t => fst (ltd_name t))) E) as M.
      pose proof intro_names_distinct as N. unfold intro_names in N. unfold intro_named in E. clear - N E. revert t t' ts E. induction introspection_at as [|x ll IH]; intros t t' ts E; [discriminate|]. cbn in N, E. inversion_clear N as [|? ? N1 N2].
      destruct (teqb (fst (ltd_name x)) n) eqn:Q; [|exact (IH N2 _ _ _ E)]. injection E as <- E. assert (I : In t' (filter (fun t => teqb (fst (ltd_name t)) n) ll)) by (rewrite E; now left).
      apply filter_In in I as (I & Q'). apply teqb_eq in Q. apply teqb_eq in Q'. apply N1. rewrite Q, <- Q'. exact (in_map (fun t => fst (ltd_name t)) _ _ I).
  Qed.
  Lemma all_some_map {A B} (f : A -> option B) (g : A -> B) ll : (forall x, In x ll -> f x = Some (g x)) -> all_some (map f ll) = Some (map g ll).
  Proof. intros H. induction ll as [|x ll IH]; [reflexivity|]. cbn. rewrite (H x (or_introl eq_refl)), IH; [reflexivity|]. intros y Hy. apply H. now right. Qed.
  Lemma intro_builtin x : In x introspection_at -> ct_builtin (rooted roots (CType true false x)) = true.
  Proof. intros I. pose proof (proj1 (forallb_forall _ _) introspection_builtin x I) as B. destruct x; try discriminate B; reflexivity. Qed.
  Lemma own_not_builtin x : ct_builtin (rooted roots (CType false false x)) = false.
  Proof. destruct x; reflexivity. Qed.
  Lemma filter_none {A} (p : A -> bool) ll : (forall x, In x ll -> p x = false) -> filter p ll = [].
  Proof. intros H. induction ll as [|x ll IH]; [reflexivity|]. cbn. rewrite (H x (or_introl eq_refl)). apply IH. intros y Hy. apply H. now right. Qed.
  Lemma filter_all {A} (p : A -> bool) ll : (forall x, In x ll -> p x = true) -> filter p ll = ll.
  Proof. intros H. induction ll as [|x ll IH]; [reflexivity|]. cbn. rewrite (H x (or_introl eq_refl)). f_equal. apply IH. intros y Hy. apply H. now right. Qed.
  Lemma existsb_none {A} (p : A -> bool) ll : (forall x, In x ll -> p x = false) -> existsb p ll = false.
  Proof. intros H. induction ll as [|x ll IH]; [reflexivity|]. cbn. rewrite (H x (or_introl eq_refl)). apply IH. intros y Hy. apply H. now right. Qed.
  Definition own_mark (n : name) (t : ltdef) : annotation := (tx "Type definition with name `" ++ n ++ tx "`", snd (ltd_name t)).
  Lemma duplicate_error n ts : In (n, ts) (snd (index ct_name (lc_types d))) ->
    error_of (LDuplicateTypes n ts) = Some (at_places ((if existsb ct_builtin ts then tx "Cannot redefine builtin type " ++ n else tx "Multiple type definitions with name `" ++ n ++ tx "`")) (map (own_mark n) (types_named n l))) /\
    (existsb ct_builtin ts = true -> introspection_name n /\ types_named n l <> []) /\ (existsb ct_builtin ts = false -> ~ introspection_name n /\ 2 <= length (types_named n l)).
  Proof.
    intros H. apply dups_In in H as (E & L). unfold with_key in E. destruct (types_with n) as (sc & Ew & C). rewrite Ew in E.
    assert (sc = []). { destruct C as [C|(L1 & C1 & C2)]; [exact C|]. rewrite C1, C2 in E. cbn in E. subst ts. rewrite map_length in L. lia. } subst sc. clear C. cbn [map] in E. rewrite app_nil_r in E.
    assert (F : filter (fun t => negb (ct_builtin t)) ts = map (fun t => rooted roots (CType false false t)) (types_named n l)).
    { subst ts. rewrite filter_app, filter_none, filter_all; [reflexivity| |].
      - intros x I. apply in_map_iff in I as (t & <- & _). now rewrite own_not_builtin.
      - intros x I. apply in_map_iff in I as (t & <- & I). apply filter_In in I as (I & _). now rewrite intro_builtin. }
    split.
    - cbn [error_of]. rewrite F, map_map. rewrite (all_some_map _ (own_mark n)); [|intros x _; destruct x; reflexivity]. cbn [option_map]. unfold at_places, ticked. do 2 f_equal.
      destruct (existsb ct_builtin ts); [now rewrite app_nil_r|reflexivity].
    - destruct (intro_once n) as [(I & t & Et)|(I & Et)]; rewrite Et in E; cbn [map app] in E.
      + assert (It : In t introspection_at). { assert (J : In t (intro_named n)) by (rewrite Et; now left). now apply filter_In in J. } split.
        * intros _. split; [exact I|]. intros N. rewrite N in E. subst ts. cbn in L. lia.
        * intros N. subst ts. cbn [existsb] in N. rewrite (intro_builtin t It) in N. discriminate N.
      + split.
        * intros N. exfalso. subst ts. rewrite existsb_none in N; [discriminate|]. intros x J. apply in_map_iff in J as (t & <- & _). apply own_not_builtin.
        * intros _. split; [exact I|]. subst ts. now rewrite map_length in L.
  Qed.
  Lemma types_repeated : Forall (explained (repeated l)) (map (fun p => LDuplicateTypes (fst p) (snd p)) (snd (index ct_name (lc_types d)))).
  Proof.
    apply Forall_map. apply Forall_forall. intros [n ts] I. cbn [fst snd]. destruct (duplicate_error n ts I) as (E & H1 & H2). eexists. split; [exact E|].
    destruct (existsb ct_builtin ts); [apply rp_builtin|apply rp_types]; tauto.
  Qed.
  Lemma ddefs_with n : filter (fun x => teqb (cd_name x) n) (lc_ddefs d) = map (pair false) (ddefs_named n l) \/ (length (filter (fun x => teqb (cd_name x) n) (lc_ddefs d)) <= 1 /\ ddefs_named n l = []).
  Proof.
    unfold d, complete_at. cbn [lc_ddefs]. rewrite filter_app, !filter_map'. change (filter (fun x => teqb (cd_name (false, x)) n) (doc_ddefs l)) with (ddefs_named n l).
    set (added := filter _ directive_order). destruct (filter (fun x => teqb (cd_name (true, x)) n) added) as [|b bs] eqn:F; [left; now rewrite app_nil_r|]. right.
    assert (N : ddefs_named n l = []).
    { assert (I : In b (filter (fun x => teqb (cd_name (true, x)) n) added)) by (rewrite F; now left). apply filter_In in I as (I & Eb). apply filter_In in I as (I & Nb). apply teqb_eq in Eb. cbn in Eb.
      apply filter_none. intros x Hx. apply teqb_neq. intros Ex. rewrite Bool.negb_true_iff in Nb. rewrite <- Bool.not_true_iff_false in Nb. apply Nb. apply tmem_In. apply in_map_iff. exists x. split; [exact (eq_trans Ex (eq_sym Eb))|exact Hx]. }
    split; [|exact N]. rewrite N, app_length, !map_length, <- F. cbn [length plus].
    assert (NA : NoDup (map (fun x => fst (ldd_name x)) added)).
    { unfold added. pose proof (Permutation_NoDup (Permutation_sym (Permutation_map (fun x => fst (ldd_name x)) Hd)) builtin_directives_distinct) as ND. clear - ND. induction directive_order as [|x ll IH]; [constructor|].
      cbn in *. inversion_clear ND as [|? ? N1 N2]. destruct (negb _); [|auto]. cbn. constructor; [|auto]. intros I. apply N1. apply in_map_iff in I as (y & <- & I). apply filter_In in I as (I & _). now apply (in_map (fun x => fst (ldd_name x))). }
    exact (NoDup_with_key (fun x => fst (ldd_name x)) added n NA).
  Qed.
  Lemma ddefs_repeated : Forall (explained (repeated l)) (map (fun p => LDuplicateDirectives (fst p) (snd p)) (snd (index cd_name (lc_ddefs d)))).
  Proof.
    apply Forall_map. apply Forall_forall. intros [n ds] I. cbn [fst snd]. apply dups_In in I as (E & L). unfold with_key in E. destruct (ddefs_with n) as [Ew|(Ew & _)]; [|rewrite <- E in Ew; lia].
    rewrite Ew in E. subst ds. eexists. split; [reflexivity|]. rewrite existsb_none by (intros x I; apply in_map_iff in I as (y & <- & _); reflexivity).
    rewrite filter_all by (intros x I; apply in_map_iff in I as (y & <- & _); reflexivity). rewrite map_map. cbn [snd]. refine (rp_directives l n _). now rewrite map_length in L.
  Qed.
  (** ** Roots *)
  Lemma optype_eqb_eq a b : optype_eqb a b = true -> a = b.
  Proof. destruct a, b; (reflexivity || discriminate). Qed.
  Lemma explicit_explained ty e : doc_schemas l = [e] -> Forall (explained (wrong_root T l)) (snd (explicit_root_at types ty e)) /\
    (snd (explicit_root_at types ty e) = [] -> fst (explicit_root_at types ty e) = false -> roots_for ty e = []).
  Proof.
    intros He. unfold explicit_root_at. change (filter (fun p => optype_eqb (fst p) ty) (les_roots e)) with (roots_for ty e). destruct (roots_for ty e) as [|p [|p' ps]] eqn:E.
    - split; [constructor|reflexivity].
    - assert (Hp : fst p = ty). { assert (I : In p (roots_for ty e)) by (rewrite E; now left). apply filter_In in I as (_ & I). now apply optype_eqb_eq. }
      destruct (assoc (fst (snd p)) types) as [t|] eqn:A.
      + destruct (ct_is_object t) eqn:K; cbn [fst snd]; [split; [constructor|discriminate]|]. split; [|discriminate]. constructor; [|constructor]. eexists. split; [reflexivity|].
        destruct (lookup_T _ _ A) as (I & En). refine (ro_not_object _ _ e p _ He _ I En (not_object _ K)). now rewrite Hp.
      + cbn [fst snd]. split; [|discriminate]. constructor; [|constructor]. eexists. split; [reflexivity|]. refine (ro_missing _ _ e p He _ (lookup_none _ A)). now rewrite Hp.
    - cbn [fst snd]. split; [|discriminate]. constructor; [|constructor]. eexists. split; [reflexivity|]. rewrite <- E. refine (ro_repeated _ _ e ty He _). rewrite E. cbn. lia.
  Qed.
  Lemma own_word n t : root_word n -> assoc n types = Some t -> exists x, In x (doc_types l) /\ t = rooted roots (CType false false x) /\ fst (ltd_name x) = n.
  Proof.
    intros R A. destruct (lookup_In _ _ A) as (I & En). destruct (type_cases t I) as [(b & ->)|[(x & Ix & ->)|(x & Ix & ->)]].
    - exfalso. cbn in En. destruct R as [-> | [-> | ->]]; destruct b; discriminate En.
    - exfalso. rewrite rooted_name in En. cbn [ct_name] in En. assert (J : In n intro_names) by (rewrite <- En; apply (in_map (fun t => fst (ltd_name t))); exact Ix). rewrite intro_names_types in J. cbn in J.
      destruct R as [-> | [-> | ->]]; repeat (destruct J as [J|J]; [discriminate J|]); destruct J.
    - exists x. rewrite rooted_name in En. auto.
  Qed.
  Lemma implicit_explained n : doc_schemas l = [] -> root_word n -> Forall (explained (wrong_root T l)) (snd (implicit_root_at types n)) /\
    (snd (implicit_root_at types n) = [] -> fst (implicit_root_at types n) = false -> undefined T n) /\ (fst (implicit_root_at types n) = true -> ~ undefined T n).
  Proof.
    intros He R. unfold implicit_root_at. destruct (assoc n types) as [t|] eqn:A; cbn [fst snd].
    - destruct (lookup_T _ _ A) as (I & En). destruct (ct_is_object t) eqn:K; cbn [fst snd].
      + split; [constructor|]. split; [discriminate|]. intros _ N. exact (N _ I En).
      + split; [|split; discriminate]. constructor; [|constructor]. destruct (own_word _ _ R A) as (x & Ix & -> & Ex). eexists. split; [destruct (rooted_form false x) as (r & ->); reflexivity|].
        refine (ro_conventional _ _ x He Ix _ _); [now rewrite Ex|]. intros n' d' i ds fs ->. discriminate K.
    - split; [constructor|]. split; [|discriminate]. intros _ _. exact (lookup_none _ A).
  Qed.
  Lemma app_nil3 {A} (a b c : list A) : a ++ b ++ c = [] -> a = [] /\ b = [] /\ c = [].
  Proof. destruct a; [|discriminate]. destruct b; [|discriminate]. auto. Qed.
  Lemma explicit_schema_explained es : explicit_schema_at types (doc_schemas l) = inr es -> Forall (explained (wrong_root T l)) es.
  Proof.
    unfold explicit_schema_at. destruct (doc_schemas l) as [|e [|e' rest]] eqn:He; [discriminate| |].
    - destruct (explicit_explained OQuery e He) as (F1 & N1). destruct (explicit_explained OMutation e He) as (F2 & _). destruct (explicit_explained OSubscription e He) as (F3 & _).
      destruct (explicit_root_at types OQuery e) as [q e1]. destruct (explicit_root_at types OMutation e) as [m e2]. destruct (explicit_root_at types OSubscription e) as [s e3]. cbn [fst snd] in *.
      destruct (e1 ++ e2 ++ e3) as [|x xs] eqn:E.
      + apply app_nil3 in E as (-> & _). destruct q; [discriminate|]. intros H. injection H as <-. constructor; [|constructor]. eexists. split; [reflexivity|]. exact (ro_no_query _ _ e He (N1 eq_refl eq_refl)).
      + intros H. injection H as <-. rewrite <- E. now repeat (apply Forall_app; split).
    - intros H. injection H as <-. constructor; [|constructor]. eexists. split; [reflexivity|]. rewrite <- He. apply ro_schemas. rewrite He. cbn. lia.
  Qed.
  Lemma explicit_schema_false ty es : explicit_schema_at ty es = inl false -> es = [].
  Proof.
    unfold explicit_schema_at. destruct es as [|e [|e' rest]]; [reflexivity| |discriminate]. destruct (explicit_root_at ty OQuery e) as [q e1]. destruct (explicit_root_at ty OMutation e) as [m e2].
    destruct (explicit_root_at ty OSubscription e) as [s e3]. destruct (e1 ++ e2 ++ e3); [destruct q|]; discriminate.
  Qed.
  Lemma implicit_schema_explained : doc_schemas l = [] ->
    match implicit_schema_at types with inr es => Forall (explained (fun e => wrong_root T l e \/ lacking T l e)) es | inl true => True | inl false => explained (lacking T l) LNoSchema end.
  Proof.
    intros He. unfold implicit_schema_at. destruct (implicit_explained (tx "Query") He) as (F1 & N1 & _); [left; reflexivity|]. destruct (implicit_explained (tx "Mutation") He) as (F2 & N2 & P2); [right; left; reflexivity|].
    destruct (implicit_explained (tx "Subscription") He) as (F3 & N3 & P3); [right; right; reflexivity|].
    destruct (implicit_root_at types (tx "Query")) as [q e1]. destruct (implicit_root_at types (tx "Mutation")) as [m e2]. destruct (implicit_root_at types (tx "Subscription")) as [s e3]. cbn [fst snd] in *.
    assert (I : forall es, Forall (explained (wrong_root T l)) es -> Forall (explained (fun e => wrong_root T l e \/ lacking T l e)) es).
    { intros es. apply Forall_impl. intros x (er & E & W). exists er. auto. }
    destruct (e1 ++ e2 ++ e3) as [|x xs] eqn:E.
    - apply app_nil3 in E as (-> & -> & ->). destruct q; [exact Logic.I|]. destruct m; cbn [orb].
      + constructor; [|constructor]. eexists. split; [reflexivity|]. right. apply lk_query; auto.
      + destruct s; [constructor; [|constructor]; eexists; split; [reflexivity|]; right; apply lk_query; auto|]. eexists. split; [reflexivity|]. apply lk_schema; auto.
    - apply I. rewrite <- E. now repeat (apply Forall_app; split).
  Qed.
  Lemma errors_explained : Forall (explained (mistake T D l)) (resolve_at d).
  Proof.
    assert (I : forall (P Q : err -> Prop) es, (forall e, P e -> Q e) -> Forall (explained P) es -> Forall (explained Q) es).
    { intros P Q es H. apply Forall_impl. intros x (er & E & W). exists er. auto. }
    unfold resolve_at. pose proof types_repeated as R1. pose proof ddefs_repeated as R2. pose proof all_explained as R3. pose proof explicit_schema_explained as S1. pose proof implicit_schema_explained as S2.
    change (lc_schemas d) with (doc_schemas l). fold d. destruct (index ct_name (lc_types d)) as [ty dt]. destruct (index cd_name (lc_ddefs d)) as [dd ddt]. cbn [fst snd] in *.
    destruct (map _ dt ++ map _ ddt ++ resolve_all_at ty dd) as [|x xs] eqn:E.
    - destruct (explicit_schema_at ty (doc_schemas l)) as [[]|es] eqn:X; [constructor| |].
      + specialize (S2 (explicit_schema_false _ _ X)). destruct (implicit_schema_at ty) as [[]|es]; [constructor| |].
        * constructor; [|constructor]. destruct S2 as (er & Ee & W). exists er. split; [exact Ee|]. unfold mistake. auto.
        * revert S2. apply I. unfold mistake. tauto.
      + generalize (S1 es eq_refl). apply I. unfold mistake. tauto.
    - rewrite <- E. apply Forall_app; split; [|apply Forall_app; split].
      + revert R1. apply I. unfold mistake. tauto.
      + revert R2. apply I. unfold mistake. tauto.
      + revert R3. apply I. unfold mistake. tauto.
  Qed.
  (** ** Every mistake is reported *)
  Lemma errors_are e : Forall (explained (mistake T D l)) e -> exists es, all_some (map error_of e) = Some es /\ Forall (mistake T D l) es /\ Forall2 (fun x er => error_of x = Some er) e es.
  Proof.
    induction e as [|x e IH]; intros F; [exists []; split; [reflexivity|split; constructor]|]. inversion_clear F as [|? ? (er & E & M) F']. destruct (IH F') as (es & E' & M' & F2).
    exists (er :: es). cbn. rewrite E, E'. split; [reflexivity|]. split; constructor; assumption.
  Qed.
  Definition base_errors : list lderror := map (fun p => LDuplicateTypes (fst p) (snd p)) (snd (index ct_name (lc_types d))) ++
    map (fun p => LDuplicateDirectives (fst p) (snd p)) (snd (index cd_name (lc_ddefs d))) ++ resolve_all_at types ddefs.
  Lemma resolve_at_eq : resolve_at d = match base_errors with
    | [] => match explicit_schema_at types (doc_schemas l) with
            | inr es => es | inl true => []
            | inl false => match implicit_schema_at types with inr es => es | inl true => [] | inl false => [LNoSchema] end end
    | es => es end.
  Proof. unfold resolve_at, base_errors. change (lc_schemas d) with (doc_schemas l). destruct (index ct_name (lc_types d)) as [ty dt]. destruct (index cd_name (lc_ddefs d)) as [dd ddt]. reflexivity. Qed.
  Lemma base_reported x : In x base_errors -> In x (resolve_at d).
  Proof. rewrite resolve_at_eq. destruct base_errors; [intros []|auto]. Qed.
  Lemma repeated_reported er : repeated l er -> exists x, In x base_errors /\ error_of x = Some er.
  Proof.
    intros H. assert (G : forall n, 2 <= length (intro_named n) + length (types_named n l) -> exists ts, In (n, ts) (snd (index ct_name (lc_types d)))).
    { intros n L. exists (filter (fun t => teqb (ct_name t) n) (lc_types d)). apply dups_In. split; [reflexivity|]. destruct (types_with n) as (sc & -> & _). rewrite !app_length, !map_length. lia. }
    assert (B : forall n ts, In (n, ts) (snd (index ct_name (lc_types d))) -> In (LDuplicateTypes n ts) base_errors).
    { intros n ts I. apply in_or_app. left. apply in_map_iff. exists (n, ts). auto. }
    destruct H as [n I N|n I N|n N].
    - destruct (intro_once n) as [(_ & t & Et)|(C & _)]; [|contradiction]. destruct (G n) as (ts & J). { rewrite Et. destruct (types_named n l); [congruence|]. cbn. lia. }
      destruct (duplicate_error n ts J) as (E & H1 & H2). exists (LDuplicateTypes n ts). split; [auto|]. rewrite E. destruct (existsb ct_builtin ts); [reflexivity|]. destruct (H2 eq_refl). contradiction.
    - destruct (G n) as (ts & J); [lia|]. destruct (duplicate_error n ts J) as (E & H1 & H2). exists (LDuplicateTypes n ts). split; [auto|]. rewrite E. destruct (existsb ct_builtin ts); [|reflexivity]. destruct (H1 eq_refl). contradiction.
    - destruct (ddefs_with n) as [Ew|(_ & Ew)]; [|rewrite Ew in N; cbn in N; lia]. exists (LDuplicateDirectives n (map (pair false) (ddefs_named n l))). split.
      + apply in_or_app. right. apply in_or_app. left. apply in_map_iff. exists (n, map (pair false) (ddefs_named n l)). split; [reflexivity|]. apply dups_In. split; [now rewrite <- Ew|]. now rewrite map_length.
      + cbn [error_of]. rewrite existsb_none by (intros x I; apply in_map_iff in I as (y & <- & _); reflexivity).
        rewrite filter_all by (intros x I; apply in_map_iff in I as (y & <- & _); reflexivity). rewrite map_map. reflexivity.
  Qed.
  Section Distinct.
    Hypothesis NT : NoDup (map td_name T).
    Hypothesis ND : NoDup (map dd_name D).
    Lemma NT' : NoDup (map ct_name (lc_types d)).
    Proof. unfold T in NT. rewrite map_map in NT. rewrite (map_ext _ _ ct_name_plain) in NT. exact NT. Qed.
    Lemma ND' : NoDup (map cd_name (lc_ddefs d)).
    Proof. unfold D in ND. rewrite map_map in ND. exact ND. Qed.
    Lemma found t : In t T -> exists c, assoc (td_name t) types = Some c /\ plain_ctype c = t.
    Proof. intros I. apply in_map_iff in I as (c & <- & I). exists c. split; [|reflexivity]. apply (index_NoDup _ _ _ _ NT' I). now rewrite ct_name_plain. Qed.
    Lemma not_found n : undefined T n -> assoc n types = None.
    Proof. intros H. destruct (assoc n types) as [c|] eqn:E; [|reflexivity]. destruct (lookup_T _ _ E) as (I & En). destruct (H _ I En). Qed.
    Lemma ddef_not_found n : (forall x, In x D -> dd_name x <> n) -> assoc n ddefs = None.
    Proof. intros H. destruct (assoc n ddefs) as [c|] eqn:E; [|reflexivity]. apply index_In in E as (I & En). destruct (H (plain_cddef c) (in_map _ _ _ I) En). Qed.
    Lemma own_indexed t : In t (doc_types l) -> exists r, In (CType false r t) (map snd types).
    Proof. intros I. destruct (rooted_form false t) as (r & E). exists r. rewrite <- E. apply (Permutation_in _ (index_perm _ _ NT')). now apply own_type. Qed.
    Lemma own_resolved t x : In t (doc_types l) -> (forall r, In x (resolve_tdef_at types ddefs r t)) -> In x (resolve_all_at types ddefs).
    Proof. intros I H. destruct (own_indexed t I) as (r & J). apply in_or_app. left. apply in_flat_map. exists (CType false r t). split; [exact J|apply H]. Qed.
    Lemma fdef_resolved f x : In f (doc_fields l) -> In x (resolve_fdef_at types ddefs f) -> In x (resolve_all_at types ddefs).
    Proof.
      intros I H. apply in_flat_map in I as (t & It & If). apply (own_resolved t x It). intros r. destruct t; try destruct If; cbn [resolve_tdef_at type_fields] in *; rewrite fields_silent; apply in_or_app; left; apply in_flat_map; eauto.
    Qed.
    Lemma value_resolved i x : In i (doc_values l) -> In x (resolve_ivd_at types ddefs i) -> In x (resolve_all_at types ddefs).
    Proof.
      intros I H. apply in_app_or in I as [I|I]; apply in_flat_map in I as (t & It & If).
      - assert (K : (exists f, In f (type_fields t) /\ In i (ivds_list (lfd_args f))) \/ (exists n d' ds fs, t = LDInput n d' ds fs /\ In i (fst fs))).
        { destruct t; try (left; cbn [type_values] in If; apply in_flat_map in If as (f & J & J'); exists f; split; assumption). right. eauto 8. }
        destruct K as [(f & If' & Ii)|(n & d' & ds & fs & -> & Ii)].
        + apply (fdef_resolved f); [apply in_flat_map; eauto|]. unfold resolve_fdef_at. apply in_or_app. right. apply in_or_app. left. apply in_flat_map. eauto.
        + apply (own_resolved _ x It). intros r. cbn [resolve_tdef_at]. apply in_or_app. left. apply in_flat_map. eauto.
      - apply in_or_app. right. apply in_flat_map. exists (false, t). split; [|apply in_flat_map; eauto]. apply (Permutation_in _ (index_perm _ _ ND')). unfold d, complete_at. cbn [lc_ddefs]. apply in_or_app. left. now apply in_map.
    Qed.
    Lemma interface_resolved n x : In n (interface_names l) -> In x (match assoc (fst n) types with Some t => if ct_is_interface t then [] else [LNotInterface n] | None => [LTypeMissing n] end) -> In x (resolve_all_at types ddefs).
    Proof.
      intros I H. apply in_flat_map in I as (t & It & If). apply (own_resolved t x It). intros r.
      destruct t; try destruct If; cbn [resolve_tdef_at type_interfaces] in *; apply in_or_app; right; apply in_or_app; left; apply in_flat_map; exists n; auto.
    Qed.
    Lemma member_resolved n x : In n (member_names l) -> In x (match assoc (fst n) types with Some t => if ct_is_object t then [] else [LMemberNotObject n] | None => [LTypeMissing n] end) -> In x (resolve_all_at types ddefs).
    Proof.
      intros I H. apply in_flat_map in I as (t & It & If). apply (own_resolved t x It). intros r. destruct t; try destruct If; cbn [resolve_tdef_at type_members] in *. apply in_or_app. right. apply in_or_app. left. apply in_flat_map. exists n. auto.
    Qed.
    Lemma directive_resolved x : In x (applied l) -> assoc (fst (ld_name x)) ddefs = None -> In (LDirectiveMissing x) (resolve_all_at types ddefs).
    Proof.
      intros I E. assert (R : forall o, In x (directives_list o) -> In (LDirectiveMissing x) (resolve_directives_at ddefs o)).
      { intros o J. apply in_flat_map. exists x. split; [exact J|]. rewrite E. now left. }
      unfold applied in I. repeat (apply in_app_or in I as [I|I]); apply in_flat_map in I as (t & It & If).
      - apply (own_resolved t _ It). intros r. unfold type_directives in If. apply R in If. destruct t; cbn [resolve_tdef_at]; rewrite ?in_app_iff; tauto.
      - apply (fdef_resolved t _ It). unfold resolve_fdef_at. apply R in If. rewrite !in_app_iff. tauto.
      - apply (value_resolved t _ It). unfold resolve_ivd_at. apply R in If. rewrite !in_app_iff. tauto.
      - apply (own_resolved t _ It). intros r. apply in_flat_map in If as (v & Iv & J). apply R in J. destruct t; try destruct Iv; cbn [resolve_tdef_at type_enum_values] in *. apply in_or_app. right. apply in_flat_map. eauto.
    Qed.
    Lemma wrong_reported er : wrong er -> exists x, In x base_errors /\ error_of x = Some er.
    Proof.
      intros H. assert (B : forall x, In x (resolve_all_at types ddefs) -> In x base_errors) by (intros x I; apply in_or_app; right; apply in_or_app; right; exact I).
      destruct H as [n [I|[I|[I|I]]] N|n t I It En K|n t I It En K|n t I It En K|n t I It En K|x I N].
      - exists (LTypeMissing n). split; [|reflexivity]. apply B. apply in_map_iff in I as (f & <- & I). apply (fdef_resolved f _ I). unfold resolve_fdef_at. rewrite (not_found _ N). left. reflexivity.
      - exists (LTypeMissing n). split; [|reflexivity]. apply B. apply in_map_iff in I as (f & <- & I). apply (value_resolved f _ I). unfold resolve_ivd_at. rewrite (not_found _ N). left. reflexivity.
      - exists (LTypeMissing n). split; [|reflexivity]. apply B. apply (interface_resolved n _ I). rewrite (not_found _ N). left. reflexivity.
      - exists (LTypeMissing n). split; [|reflexivity]. apply B. apply (member_resolved n _ I). rewrite (not_found _ N). left. reflexivity.
      - exists (LNotOutput n). split; [|reflexivity]. apply B. apply in_map_iff in I as (f & <- & I). apply (fdef_resolved f _ I). unfold resolve_fdef_at. destruct (found t It) as (c & Ec & <-). rewrite <- En, Ec. rewrite is_output_plain in K. rewrite K. left. reflexivity.
      - exists (LNotInput n). split; [|reflexivity]. apply B. apply in_map_iff in I as (f & <- & I). apply (value_resolved f _ I). unfold resolve_ivd_at. destruct (found t It) as (c & Ec & <-). rewrite <- En, Ec. rewrite is_input_plain in K. rewrite K. left. reflexivity.
      - exists (LNotInterface n). split; [|reflexivity]. apply B. apply (interface_resolved n _ I). destruct (found t It) as (c & Ec & <-). rewrite <- En, Ec. destruct (ct_is_interface c) eqn:Q; [|left; reflexivity].
        exfalso. destruct c as [|b r c]; [discriminate Q|]. destruct c; try discriminate Q. exact (K _ eq_refl).
      - exists (LMemberNotObject n). split; [|reflexivity]. apply B. apply (member_resolved n _ I). destruct (found t It) as (c & Ec & <-). rewrite <- En, Ec. destruct (ct_is_object c) eqn:Q; [|left; reflexivity].
        exfalso. destruct c as [|b r c]; [discriminate Q|]. destruct c; try discriminate Q. exact (K _ eq_refl).
      - exists (LDirectiveMissing x). split; [|reflexivity]. apply B. apply (directive_resolved x I). now apply ddef_not_found.
    Qed.
    (** mistakes in the schema definition are reported when there are no others *)
    Lemma no_base : (forall er, ~ wrong er) -> (forall er, ~ repeated l er) -> base_errors = [].
    Proof.
      intros W R. unfold base_errors. pose proof types_repeated as R1. pose proof ddefs_repeated as R2. pose proof all_explained as R3.
      assert (N : forall P es, Forall (explained P) es -> (forall er, ~ P er) -> es = []). { intros P es F C. destruct F as [|x es (er & _ & H) _]; [reflexivity|]. destruct (C er H). }
      rewrite (N _ _ R1 R), (N _ _ R2 R), (N _ _ R3 W). reflexivity.
    Qed.
    Definition no_query_error (er : err) : Prop := er_message er = tx "Schema definition does not contain a query".
    Lemma explicit_in ty e x : In x (snd (explicit_root_at types ty e)) ->
      exists es, explicit_schema_at types [e] = inr es /\ In x es.
    Proof.
      intros I. unfold explicit_schema_at. assert (J : In x (snd (explicit_root_at types OQuery e) ++ snd (explicit_root_at types OMutation e) ++ snd (explicit_root_at types OSubscription e))) by (rewrite !in_app_iff; destruct ty; tauto).
      destruct (explicit_root_at types OQuery e) as [q e1]. destruct (explicit_root_at types OMutation e) as [m e2]. destruct (explicit_root_at types OSubscription e) as [s e3]. cbn [snd] in J.
      destruct (e1 ++ e2 ++ e3); [destruct J|]. eauto.
    Qed.
    Lemma implicit_in n x : root_word n -> In x (snd (implicit_root_at types n)) -> exists es, implicit_schema_at types = inr es /\ In x es.
    Proof.
      intros R I. unfold implicit_schema_at.
      assert (J : In x (snd (implicit_root_at types (tx "Query")) ++ snd (implicit_root_at types (tx "Mutation")) ++ snd (implicit_root_at types (tx "Subscription")))).
      { rewrite !in_app_iff. destruct R as [-> | [-> | ->]]; tauto. }
      destruct (implicit_root_at types (tx "Query")) as [q e1]. destruct (implicit_root_at types (tx "Mutation")) as [m e2]. destruct (implicit_root_at types (tx "Subscription")) as [s e3]. cbn [snd] in J.
      destruct (e1 ++ e2 ++ e3); [destruct J|]. eauto.
    Qed.
    Lemma not_object_found t : In t T -> (forall o, t <> DObject o) -> exists c, assoc (td_name t) types = Some c /\ ct_is_object c = false.
    Proof.
      intros I K. destruct (found t I) as (c & E & <-). exists c. split; [exact E|]. destruct (ct_is_object c) eqn:Q; [|reflexivity]. exfalso. destruct c as [|b r c]; [discriminate Q|]. destruct c; try discriminate Q. exact (K _ eq_refl).
    Qed.
    Lemma root_reported er : base_errors = [] -> wrong_root T l er ->
      exists x, In x (resolve_at d) /\ (error_of x = Some er \/ no_query_error er /\ explained (wrong_root T l) x).
    Proof.
      intros B W. rewrite resolve_at_eq, B.
      assert (X : forall e ty x, doc_schemas l = [e] -> In x (snd (explicit_root_at types ty e)) -> In x (match explicit_schema_at types (doc_schemas l) with inr es => es | inl true => [] | inl false => match implicit_schema_at types with inr es => es | inl true => [] | inl false => [LNoSchema] end end)).
      { intros e ty x -> I. destruct (explicit_in ty e x I) as (es & -> & J). exact J. }
      destruct W as [e p He Hp N|e p t He Hp It En K|e ty He L|L|e He N|t He It R K].
      - exists (LExplicitRootMissing p). split; [|left; reflexivity]. apply (X e (fst p) _ He). unfold explicit_root_at. change (filter (fun q => optype_eqb (fst q) (fst p)) (les_roots e)) with (roots_for (fst p) e). rewrite Hp, (not_found _ N). now left.
      - exists (LExplicitRootNotObject (snd p)). split; [|left; reflexivity]. apply (X e (fst p) _ He). unfold explicit_root_at. change (filter (fun q => optype_eqb (fst q) (fst p)) (les_roots e)) with (roots_for (fst p) e).
        rewrite Hp. destruct (not_object_found t It K) as (c & Ec & Kc). rewrite <- En, Ec, Kc. now left.
      - exists (LDuplicateRoots ty (roots_for ty e)). split; [|left; reflexivity]. apply (X e ty _ He). unfold explicit_root_at. change (filter (fun q => optype_eqb (fst q) ty) (les_roots e)) with (roots_for ty e).
        destruct (roots_for ty e) as [|a [|b r]]; [cbn in L; lia|cbn in L; lia|]. now left.
      - exists (LDuplicateSchemas (doc_schemas l)). split; [|left; reflexivity]. destruct (doc_schemas l) as [|a [|b r]]; [cbn in L; lia|cbn in L; lia|]. now left.
      - rewrite He. pose proof (explicit_explained OQuery e He) as (F1 & _). pose proof (explicit_explained OMutation e He) as (F2 & _). pose proof (explicit_explained OSubscription e He) as (F3 & _).
        unfold explicit_schema_at. assert (Q : explicit_root_at types OQuery e = (false, [])) by (unfold explicit_root_at; change (filter (fun q => optype_eqb (fst q) OQuery) (les_roots e)) with (roots_for OQuery e); now rewrite N).
        rewrite Q. destruct (explicit_root_at types OMutation e) as [m e2]. destruct (explicit_root_at types OSubscription e) as [s e3]. cbn [app snd] in *. destruct (e2 ++ e3) as [|x xs] eqn:E.
        + exists (LExplicitMissingQuery e). split; [now left|]. left. reflexivity.
        + exists x. split; [now left|]. right. split; [reflexivity|]. assert (F : Forall (explained (wrong_root T l)) (e2 ++ e3)) by (apply Forall_app; auto). rewrite E in F. now inversion F.
      - exists (LImplicitRootNotObject (rooted roots (CType false false t))). split; [|left; destruct t; reflexivity]. rewrite He. cbn [explicit_schema_at].
        assert (I : In (LImplicitRootNotObject (rooted roots (CType false false t))) (snd (implicit_root_at types (fst (ltd_name t))))).
        { unfold implicit_root_at. change (fst (ltd_name t)) with (ct_name (CType false false t)). rewrite (index_NoDup _ _ _ _ NT' (own_type t It) (rooted_name _ _)). destruct t; try (left; reflexivity). exfalso. exact (K _ _ _ _ _ eq_refl). }
        destruct (implicit_in _ _ R I) as (es & -> & J). exact J.
    Qed.
  End Distinct.
End Errors.
