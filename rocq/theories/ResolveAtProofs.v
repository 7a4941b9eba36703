(** Forgetting the positions of ResolveAt.v gives Resolve.v. *)
From Coq Require Import String.
From Verif Require Import Base Ast Maps Lexer Parser Location DefParser DefParserSpec DefParserProofs DefParserProps ParserAt DefParserAt ParserAtSpec DefParserAtSpec Resolve ResolveAt ResolveAtSpec ResolveProofs.
Local Open Scope string_scope.
Local Open Scope list_scope.

(** the constants *)
Lemma constant_fields : parsed parse_fdef_at (tx "__typename: String!") = Some typename_at /\
  parsed parse_fdef_at (tx "__schema: __Schema!") = Some schema_field_at /\
  parsed parse_fdef_at (tx "__type(name: String!): __Type") = Some type_field_at.
Proof. repeat split; vm_compute; reflexivity. Qed.
Lemma introspection_plain : map (fun t => plain_ctype (CType true false t)) introspection_at = introspection_types.
Proof. vm_compute. reflexivity. Qed.
Lemma builtin_directives_plain : map (fun d => plain_cddef (true, d)) builtin_directives_at = all_builtin_directives.
Proof. vm_compute. reflexivity. Qed.

(** completed documents *)
Lemma ct_name_plain t : td_name (plain_ctype t) = ct_name t.
Proof. destruct t as [b|b r t]; [reflexivity|]. destruct t; reflexivity. Qed.
Lemma rooted_name roots t : ct_name (rooted roots t) = ct_name t.
Proof. destruct t as [b|b r t]; [reflexivity|]. destruct t; reflexivity. Qed.
Lemma rooted_plain roots t : (forall b r t', t = CType b r t' -> r = false) -> plain_ctype (rooted roots t) = with_root_fields roots (plain_ctype t).
Proof.
  intros H. destruct t as [b|b r t]; [reflexivity|]. rewrite (H b r t eq_refl). destruct t; cbn; try reflexivity. rewrite app_nil_r. destruct (teqb (fst n) _ || tmem (fst n) roots) eqn:E.
  - replace (teqb (fst n) (tx "Query") || tmem (fst n) roots) with true by (symmetry; exact E). reflexivity.
  - replace (teqb (fst n) (tx "Query") || tmem (fst n) roots) with false by (symmetry; exact E). rewrite ?app_nil_r. reflexivity.
Qed.
Lemma doc_types_plain l : sys_types (map plain_sysdef l) = map plain_tdef (doc_types l).
Proof. induction l as [|[e|d|t] l IH]; cbn; [reflexivity|exact IH|exact IH|]. f_equal. exact IH. Qed.
Lemma doc_ddefs_plain l : sys_ddefs (map plain_sysdef l) = map plain_ddef (doc_ddefs l).
Proof. induction l as [|[e|d|t] l IH]; cbn; [reflexivity|exact IH| |exact IH]. f_equal. exact IH. Qed.
Lemma doc_schemas_plain l : sys_schemas (map plain_sysdef l) = map plain_esdef (doc_schemas l).
Proof. induction l as [|[e|d|t] l IH]; cbn; [reflexivity| |exact IH|exact IH]. f_equal. exact IH. Qed.
Lemma plain_own_type t : plain_ctype (CType false false t) = plain_tdef t.
Proof. destruct t; cbn; rewrite ?app_nil_r; reflexivity. Qed.
Lemma plain_own_ddef d : plain_cddef (false, d) = plain_ddef d.
Proof. reflexivity. Qed.
Lemma query_roots_plain es : flat_map (fun e => flat_map (fun p => match fst p with OQuery => [snd p] | _ => [] end) (es_roots e)) (map plain_esdef es) = query_roots_at es.
Proof.
  unfold query_roots_at. induction es as [|e es IH]; cbn [map flat_map]; [reflexivity|]. rewrite IH. f_equal. cbn. induction (les_roots e) as [|[ty n] l IHl]; cbn; [reflexivity|].
  rewrite IHl. reflexivity.
Qed.
Lemma filter_map_comm {A B} (g : A -> B) (f : B -> bool) l : filter f (map g l) = map g (filter (fun x => f (g x)) l).
Proof. induction l as [|x l IH]; cbn; [reflexivity|]. destruct (f (g x)); cbn; congruence. Qed.
Lemma complete_plain so dor l : plain_lcdoc (complete_at so dor l) = completed so (map (fun d => plain_cddef (true, d)) dor) (map plain_sysdef l).
Proof.
  unfold completed, add_root_fields, insert_directives, insert_scalars, extend, new_document, complete_at, plain_lcdoc. cbn [df_schemas df_ddefs df_types lc_schemas lc_ddefs lc_types app].
  rewrite doc_schemas_plain, doc_ddefs_plain, doc_types_plain. f_equal.
  - rewrite map_app, !map_map. f_equal. rewrite filter_map_comm. rewrite ?map_map. reflexivity.
  - unfold query_roots. cbn [df_schemas]. rewrite query_roots_plain.
    assert (E : map plain_ctype (map (CType true false) introspection_at ++ map (CType false false) (doc_types l)) = introspection_types ++ map plain_tdef (doc_types l)).
    { rewrite map_app, !map_map. rewrite introspection_plain. f_equal. apply map_ext. exact plain_own_type. }
    rewrite <- E. rewrite (map_map plain_ctype td_name). rewrite (map_ext _ _ ct_name_plain). rewrite map_map.
    remember (map (CType true false) introspection_at ++ map (CType false false) (doc_types l)) as types eqn:Et.
    rewrite (map_app (fun x => plain_ctype (rooted (query_roots_at (doc_schemas l)) x))), (map_app (with_root_fields _)), !map_map. f_equal.
    apply map_ext_in. intros t Ht. apply rooted_plain. intros b r t' ->. rewrite Et in Ht. apply in_app_or in Ht as [Ht|Ht]; apply in_map_iff in Ht as (x & Ex & _); congruence.
Qed.

(** the index *)
Definition over {A B} (f : A -> B) (p : name * A) : name * B := (fst p, f (snd p)).
Lemma assoc_over {A B} (f : A -> B) k (l : list (name * A)) : assoc k (map (over f) l) = option_map f (assoc k l).
Proof. induction l as [|[k' a] l IH]; cbn; [reflexivity|]. destruct (teqb k k'); [reflexivity|exact IH]. Qed.
Lemma tinsert_over {A B} (f : A -> B) k a (l : list (name * A)) : tinsert k (f a) (map (over f) l) = map (over f) (tinsert k a l).
Proof. induction l as [|[k' a'] l IH]; cbn; [reflexivity|]. destruct (tcmp k k'); cbn; try reflexivity. f_equal. exact IH. Qed.
Lemma index_over {A B} (f : A -> B) (key : A -> name) (key' : B -> name) (l : list A) : (forall a, key' (f a) = key a) ->
  index key' (map f l) = (map (over f) (fst (index key l)), map (over (map f)) (snd (index key l))).
Proof.
  intros K. unfold index. change (@nil (name * B), @nil (name * list B)) with (map (over f) (fst (@nil (name * A), @nil (name * list A))), map (over (map f)) (snd (@nil (name * A), @nil (name * list A)))).
  generalize (@nil (name * A), @nil (name * list A)). induction l as [|x l IH]; intros [m dups]; cbn [map fold_left]; [reflexivity|].
  rewrite <- IH. f_equal. unfold index_step. cbn [fst snd]. rewrite K, assoc_over. destruct (assoc (key x) m) as [a|]; cbn [option_map fst snd].
  - f_equal. rewrite assoc_over. rewrite <- tinsert_over. f_equal. rewrite map_app. cbn. f_equal. destruct (assoc (key x) dups); reflexivity.
  - f_equal. rewrite <- tinsert_over. reflexivity.
Qed.

(** resolution *)
Lemma base_plain t : tref_base (plain_type t) = fst (lbase t).
Proof. induction t as [n r sp|t IH r sp]; cbn; auto. Qed.
Lemma is_input_plain t : td_is_input (plain_ctype t) = ct_is_input t.
Proof. destruct t as [b|b r t]; [reflexivity|]. destruct t; reflexivity. Qed.
Lemma is_output_plain t : td_is_output (plain_ctype t) = ct_is_output t.
Proof. destruct t as [b|b r t]; [reflexivity|]. destruct t; reflexivity. Qed.
Lemma map_flat_map {A B C} (g : B -> C) (f : A -> list B) l : map g (flat_map f l) = flat_map (fun x => map g (f x)) l.
Proof. induction l as [|x l IH]; cbn; [reflexivity|]. now rewrite map_app, IH. Qed.
Lemma flat_map_map {A B C} (g : A -> B) (f : B -> list C) l : flat_map f (map g l) = flat_map (fun x => f (g x)) l.
Proof. induction l as [|x l IH]; cbn; [reflexivity|]. now rewrite IH. Qed.
Section Forget.
  Variable types : list (name * ctype).
  Variable ddefs : list (name * cddef).
  Notation T := (map (over plain_ctype) types).
  Notation D := (map (over plain_cddef) ddefs).
  Notation forget := (map plain_derror).
  Lemma directives_plain o : forget (resolve_directives_at ddefs o) = resolve_directives D (plain_directives o).
  Proof.
    unfold resolve_directives_at, resolve_directives, plain_directives, directives_list. destruct o as [[l sp]|]; [|reflexivity]. cbn [fst]. rewrite map_flat_map, flat_map_map.
    apply flat_map_ext. intros d. rewrite assoc_over. cbn. destruct (assoc (fst (ld_name d)) ddefs); reflexivity.
  Qed.
  Lemma ivd_plain i : forget (resolve_ivd_at types ddefs i) = resolve_ivd T D (plain_ivd i).
  Proof.
    unfold resolve_ivd_at, resolve_ivd. cbn [plain_ivd iv_type iv_dirs]. rewrite map_app, directives_plain, base_plain, assoc_over. f_equal.
    destruct (assoc _ types) as [t|]; cbn [option_map]; [|reflexivity]. rewrite is_input_plain. destruct (ct_is_input t); reflexivity.
  Qed.
  Lemma ivds_plain l : forget (flat_map (resolve_ivd_at types ddefs) l) = flat_map (resolve_ivd T D) (map plain_ivd l).
  Proof. rewrite map_flat_map, flat_map_map. apply flat_map_ext. exact ivd_plain. Qed.
  Lemma plain_ivds_list o : plain_ivds o = map plain_ivd (ivds_list o).
  Proof. destruct o; reflexivity. Qed.
  Lemma interfaces_plain l : forget (resolve_interfaces_at types l) = resolve_interfaces T (map fst l).
  Proof.
    unfold resolve_interfaces_at, resolve_interfaces. rewrite map_flat_map, flat_map_map. apply flat_map_ext. intros n. rewrite assoc_over.
    destruct (assoc (fst n) types) as [[b|b r t]|]; try reflexivity. destruct t; reflexivity.
  Qed.
  Lemma fdef_same f g : tref_base (fd_type g) = fst (lbase (lfd_type f)) -> fd_args g = plain_ivds (lfd_args f) -> fd_dirs g = plain_directives (lfd_dirs f) ->
    forget (resolve_fdef_at types ddefs f) = resolve_fdef T D g.
  Proof.
    intros Eb Ea Ed. unfold resolve_fdef_at, resolve_fdef. rewrite Eb, Ea, Ed, !map_app, directives_plain, plain_ivds_list, ivds_plain, assoc_over. f_equal.
    destruct (assoc _ types) as [t|]; cbn [option_map]; [|reflexivity]. rewrite is_output_plain. destruct (ct_is_output t); reflexivity.
  Qed.
  Lemma fdefs_plain l : forget (flat_map (resolve_fdef_at types ddefs) l) = flat_map (resolve_fdef T D) (map plain_fdef l).
  Proof. rewrite map_flat_map, flat_map_map. apply flat_map_ext. intros f. apply fdef_same; [apply base_plain|reflexivity|reflexivity]. Qed.
  Lemma fields_plain root fs : forget (flat_map (resolve_fdef_at types ddefs) (fields_at root fs)) =
    flat_map (resolve_fdef T D) (plain_fdefs fs ++ (if root then [schema_field; type_field] else [])).
  Proof.
    unfold fields_at, plain_fdefs. cbn [flat_map app]. rewrite !flat_map_app, !map_app. rewrite fdefs_plain. f_equal; [apply fdef_same; reflexivity|]. f_equal.
    destruct root; [|reflexivity]. cbn [flat_map]. rewrite !map_app. f_equal; [apply fdef_same; reflexivity|]. f_equal. apply fdef_same; reflexivity.
  Qed.
  Lemma ctype_plain t : forget (resolve_ctype_at types ddefs t) = resolve_tdef T D (plain_ctype t).
  Proof.
    destruct t as [b|b r t]; [reflexivity|]. destruct t as [n d ds|n d is_ ds fs|n d is_ ds fs|n d ds ms|n d ds fs|n d ds vs];
      cbn [resolve_ctype_at resolve_tdef_at plain_ctype plain_tdef resolve_tdef sc_dirs ob_fields ob_ifaces ob_dirs if_fields if_ifaces if_dirs un_fields un_members un_dirs io_fields io_dirs en_dirs en_values].
    - apply directives_plain.
    - rewrite !map_app, fields_plain, interfaces_plain, directives_plain. reflexivity.
    - rewrite !map_app, fields_plain, interfaces_plain, directives_plain, app_nil_r. reflexivity.
    - rewrite !map_app, directives_plain. f_equal.
      + cbn [flat_map]. rewrite !app_nil_r. apply fdef_same; reflexivity.
      + f_equal. rewrite map_flat_map, flat_map_map. apply flat_map_ext. intros x. rewrite assoc_over. destruct (assoc (fst x) types) as [[b'|b' r' t]|]; try reflexivity. destruct t; reflexivity.
    - rewrite map_app, ivds_plain, directives_plain. reflexivity.
    - rewrite map_app, directives_plain, map_flat_map, flat_map_map. f_equal. apply flat_map_ext. intros v. apply directives_plain.
  Qed.
  Lemma over_values {A B} (f : A -> B) (l : list (name * A)) : map snd (map (over f) l) = map f (map snd l).
  Proof. rewrite !map_map. apply map_ext. reflexivity. Qed.
  Lemma all_plain : forget (resolve_all_at types ddefs) = resolve_all T D.
  Proof.
    unfold resolve_all_at, resolve_all. rewrite map_app, !over_values, !map_flat_map, !flat_map_map. f_equal.
    - rewrite <- (flat_map_map snd (fun x => forget (resolve_ctype_at types ddefs x))), <- (flat_map_map snd (fun x => resolve_tdef T D (plain_ctype x))). apply flat_map_ext. exact ctype_plain.
    - apply flat_map_ext. intros [k d]. cbn [snd]. cbn [plain_cddef plain_ddef dd_args]. rewrite plain_ivds_list. apply ivds_plain.
  Qed.
  Definition is_left {A B} (x : option A * list B) : bool * list B := (match fst x with Some _ => true | None => false end, snd x).
  Lemma implicit_root_plain n : is_left (implicit_root T n) = (fst (implicit_root_at types n), forget (snd (implicit_root_at types n))).
  Proof. unfold implicit_root, implicit_root_at. rewrite assoc_over. destruct (assoc n types) as [[b|b r t]|]; try reflexivity. destruct t; reflexivity. Qed.
  Lemma explicit_root_plain ty e : is_left (root_or (explicit_root T ty (plain_esdef e))) = (fst (explicit_root_at types ty e), forget (snd (explicit_root_at types ty e))).
  Proof.
    unfold explicit_root, explicit_root_at. cbn [plain_esdef es_roots]. 
    match goal with |- context [root_or (match ?x with [] => _ | _ => _ end)] => set (a := x) end.
    match goal with |- context [fst (match ?x with [] => _ | _ => _ end)] => set (b := x) end.
    assert (F : a = map (fun p => (fst p, fst (snd p))) b) by apply filter_map_comm. clearbody a b. subst a.
    destruct b as [|p [|p' l]]; cbn [map]; [reflexivity| |reflexivity]. cbn [snd]. rewrite assoc_over.
    match goal with |- context [option_map plain_ctype ?x] => set (o := x) end. match goal with |- context [fst (match ?x with Some _ => _ | None => _ end)] => change x with o end.
    clearbody o. destruct o as [[b|b r t]|]; try reflexivity. destruct t; reflexivity.
  Qed.
  Lemma implicit_schema_plain : match implicit_schema T with inl (Some _) => implicit_schema_at types = inl true | inl None => implicit_schema_at types = inl false | inr es => exists es', implicit_schema_at types = inr es' /\ es = forget es' end.
  Proof.
    unfold implicit_schema, implicit_schema_at. pose proof (implicit_root_plain (tx "Query")) as Q. pose proof (implicit_root_plain (tx "Mutation")) as M. pose proof (implicit_root_plain (tx "Subscription")) as S.
    destruct (implicit_root T (tx "Query")) as [q e1], (implicit_root T (tx "Mutation")) as [m e2], (implicit_root T (tx "Subscription")) as [s e3].
    destruct (implicit_root_at types (tx "Query")) as [q' e1'], (implicit_root_at types (tx "Mutation")) as [m' e2'], (implicit_root_at types (tx "Subscription")) as [s' e3'].
    unfold is_left in *. cbn in Q, M, S. injection Q as <- ->. injection M as <- ->. injection S as <- ->. rewrite <- !map_app. destruct (e1' ++ e2' ++ e3') as [|x l]; cbn [map].
    - destruct q; [reflexivity|]. destruct m; [eexists; split; reflexivity|]. destruct s; [eexists; split; reflexivity|]. reflexivity.
    - eexists. split; reflexivity.
  Qed.
  Lemma explicit_schema_plain es : match explicit_schema T (map plain_esdef es) with inl (Some _) => explicit_schema_at types es = inl true | inl None => explicit_schema_at types es = inl false | inr l => exists es', explicit_schema_at types es = inr es' /\ l = forget es' end.
  Proof.
    unfold explicit_schema, explicit_schema_at. destruct es as [|e [|e' es]]; [reflexivity| |eexists; split; reflexivity]. cbn [map].
    pose proof (explicit_root_plain OQuery e) as Q. pose proof (explicit_root_plain OMutation e) as M. pose proof (explicit_root_plain OSubscription e) as S.
    destruct (root_or (explicit_root T OQuery _)) as [q e1], (root_or (explicit_root T OMutation _)) as [m e2], (root_or (explicit_root T OSubscription _)) as [s e3].
    destruct (explicit_root_at types OQuery e) as [q' e1'], (explicit_root_at types OMutation e) as [m' e2'], (explicit_root_at types OSubscription e) as [s' e3'].
    unfold is_left in *. cbn in Q, M, S. injection Q as <- ->. injection M as <- ->. injection S as <- ->. rewrite <- !map_app. destruct (e1' ++ e2' ++ e3') as [|x l]; cbn [map].
    - destruct q; [reflexivity|]. eexists. split; reflexivity.
    - eexists. split; reflexivity.
  Qed.
End Forget.
Lemma resolve_plain d : match resolve (plain_lcdoc d) with inl _ => resolve_at d = [] | inr es => map plain_derror (resolve_at d) = es end.
Proof.
  unfold resolve, resolve_at. cbn [plain_lcdoc df_types df_ddefs df_schemas]. rewrite (index_over plain_ctype ct_name td_name _ ct_name_plain), (index_over plain_cddef cd_name dd_name) by reflexivity.
  destruct (index ct_name (lc_types d)) as [types dt]. destruct (index cd_name (lc_ddefs d)) as [ddefs dd]. cbn [fst snd]. rewrite <- all_plain, !map_map.
  assert (E : map (fun x => DuplicateTypes (fst (over (map plain_ctype) x)) (snd (over (map plain_ctype) x))) dt ++
              map (fun x => DuplicateDirectives (fst (over (map plain_cddef) x)) (snd (over (map plain_cddef) x))) dd ++ map plain_derror (resolve_all_at types ddefs) =
              map plain_derror (map (fun p => LDuplicateTypes (fst p) (snd p)) dt ++ map (fun p => LDuplicateDirectives (fst p) (snd p)) dd ++ resolve_all_at types ddefs)).
  { rewrite !map_app, !map_map. reflexivity. }
  rewrite E. clear E. destruct (map (fun p => LDuplicateTypes (fst p) (snd p)) dt ++ map (fun p => LDuplicateDirectives (fst p) (snd p)) dd ++ resolve_all_at types ddefs) as [|x l]; [|reflexivity]. cbn [map].
  pose proof (explicit_schema_plain types (lc_schemas d)) as X. destruct (explicit_schema _ (map plain_esdef (lc_schemas d))) as [[[[[e q] m] s]|]|es].
  - rewrite X. reflexivity.
  - rewrite X. pose proof (implicit_schema_plain types) as I. destruct (implicit_schema _) as [[[[q m] s]|]|es].
    + rewrite I. reflexivity.
    + rewrite I. reflexivity.
    + destruct I as (es' & -> & ->). reflexivity.
  - destruct X as (es' & -> & ->). reflexivity.
Qed.
