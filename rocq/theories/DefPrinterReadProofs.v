(** Reading a printed schema: the definitions that are found, and what they resolve to. *)
From Coq Require Import String Sorted Permutation.
From Verif Require Import Base Ast Maps Lexer LexerSpec LexerStreamProofs LexerProps Printer Parser ParserSpec ParserProps RoundTripSpec RoundTripProofs BlockPrintProofs.
From Verif Require Import DefParser DefParserSpec DefParserProofs DefParserProps Resolve ResolveSpec ResolveProofs ResolveProps DefPrinter DefPrinterSpec DefPrinterProofs.
From Coq Require Import Lia.
Local Open Scope string_scope.
Local Open Scope list_scope.

(** ** What showing leaves alone *)
Lemma shown_name t : td_name (shown_tdef t) = td_name t.
Proof. now destruct t. Qed.
Lemma shown_names l : map td_name (map shown_tdef l) = map td_name l.
Proof. rewrite map_map. apply map_ext, shown_name. Qed.
Lemma shown_dnames l : map dd_name (map shown_ddef l) = map dd_name l.
Proof. rewrite map_map. now apply map_ext. Qed.
Lemma shown_introspection : map shown_tdef introspection_types = introspection_types.
Proof. vm_compute. reflexivity. Qed.
Lemma shown_builtin_directives d : In d all_builtin_directives -> shown_ddef d = d.
Proof. intros I. repeat (destruct I as [<-|I]; [vm_compute; reflexivity|]). destruct I. Qed.
Lemma shown_root_fields roots t : shown_tdef (with_root_fields roots t) = with_root_fields roots (shown_tdef t).
Proof.
  destruct t as [b|s|o|i|e|u|i]; try reflexivity. cbn [with_root_fields shown_tdef ob_name]. destruct (_ || _); [|reflexivity].
  cbn [shown_tdef ob_name ob_desc ob_ifaces ob_dirs ob_fields ob_builtin]. rewrite map_app. reflexivity.
Qed.
Lemma shown_is_output t : td_is_output (shown_tdef t) = td_is_output t.
Proof. now destruct t. Qed.
Lemma shown_is_input t : td_is_input (shown_tdef t) = td_is_input t.
Proof. now destruct t. Qed.
Lemma shown_fields t : td_fields (shown_tdef t) = map shown_fdef (td_fields t) \/ exists u, t = DUnion u /\ td_fields (shown_tdef t) = td_fields t.
Proof. destruct t as [b|s|o|i|e|u|i]; try (left; reflexivity). right. exists u. auto. Qed.
Lemma shown_field t f : In f (td_fields (shown_tdef t)) -> exists g, In g (td_fields t) /\ (f = shown_fdef g \/ f = g).
Proof.
  intros I. destruct (shown_fields t) as [E|(u & _ & E)]; rewrite E in I; [|eauto]. apply in_map_iff in I. destruct I as (g & <- & I). eauto.
Qed.
Lemma object_shown T n : object_named T n <-> object_named (map shown_tdef T) n.
Proof.
  split.
  - intros (o & I & E). apply (in_map shown_tdef) in I. cbn [shown_tdef] in I. eexists. split; [exact I | exact E].
  - intros (o & I & E). apply in_map_iff in I. destruct I as (t & Et & I). destruct t; try discriminate. cbn [shown_tdef] in Et. injection Et as <-. exists d. auto.
Qed.
Lemma references_shown T D : references_ok T D -> references_ok (map shown_tdef T) (map shown_ddef D).
Proof.
  intros [F V I M X].
  assert (V' : forall v, value_defined (map shown_tdef T) (map shown_ddef D) v -> exists w, value_defined T D w /\ iv_type w = iv_type v /\ iv_dirs w = iv_dirs v).
  { intros v [i v' H K|t f v' H K L|x v' H K].
    - apply in_map_iff in H. destruct H as (t & Et & H). destruct t; try discriminate. cbn [shown_tdef] in Et. injection Et as <-. cbn [io_fields] in K.
      apply in_map_iff in K. destruct K as (w & <- & K). exists w. repeat split; eapply vd_input_field; eauto.
    - apply in_map_iff in H. destruct H as (t0 & <- & H). apply shown_field in K. destruct K as (g & K & [->| ->]).
      + cbn [shown_fdef fd_args] in L. apply in_map_iff in L. destruct L as (w & <- & L). exists w. repeat split; eapply vd_argument; eauto.
      + exists v'. repeat split; eapply vd_argument; eauto.
    - apply in_map_iff in H. destruct H as (d & <- & H). cbn [shown_ddef dd_args] in K. apply in_map_iff in K. destruct K as (w & <- & K). exists w. repeat split; eapply vd_directive_argument; eauto. }
  split.
  - intros t f H K. apply in_map_iff in H. destruct H as (t0 & <- & H). apply shown_field in K. destruct K as (g & K & E).
    destruct (F t0 g H K) as (u & J & E1 & E2). exists (shown_tdef u). rewrite shown_name, shown_is_output. split; [now apply in_map|]. split; [|exact E2]. destruct E as [->| ->]; exact E1.
  - intros v H. apply V' in H. destruct H as (w & H & E & _). destruct (V w H) as (u & J & E1 & E2). exists (shown_tdef u). rewrite shown_name, shown_is_input, <- E. split; [now apply in_map | auto].
  - intros t n H K. apply in_map_iff in H. destruct H as (t0 & <- & H). destruct (I t0 n H) as (i & J & E); [now destruct t0|].
    apply (in_map shown_tdef) in J. cbn [shown_tdef] in J. eexists. split; [exact J | exact E].
  - intros u n H K. apply in_map_iff in H. destruct H as (t0 & Et & H). destruct t0; try discriminate. cbn [shown_tdef] in Et. injection Et as <-. cbn [un_members] in K.
    apply (proj1 (object_shown T n)). exact (M _ n H K).
  - intros x H. assert (E : exists y, directive_used T D y /\ dir_name y = dir_name x).
    { destruct H as [t x H K|t f x H K L|v x H K|e v x H K L].
      - apply in_map_iff in H. destruct H as (t0 & <- & H). exists x. split; [|reflexivity]. eapply du_type; [exact H|]. now destruct t0.
      - apply in_map_iff in H. destruct H as (t0 & <- & H). apply shown_field in K. destruct K as (g & K & E). exists x. split; [|reflexivity]. eapply du_field; [exact H|exact K|]. destruct E as [->| ->]; exact L.
      - apply V' in H. destruct H as (w & H & _ & E). exists x. split; [|reflexivity]. eapply du_value; [exact H|]. now rewrite E.
      - apply in_map_iff in H. destruct H as (t0 & Et & H). destruct t0; try discriminate. cbn [shown_tdef] in Et. injection Et as <-. cbn [en_values] in K.
        apply in_map_iff in K. destruct K as (w & <- & K). exists x. split; [|reflexivity]. eapply du_enum_value; eauto. }
    destruct E as (y & Hy & <-). destruct (X y Hy) as (dd & J & E). exists (shown_ddef dd). split; [now apply in_map | exact E].
Qed.

(** ** The definitions of a printed schema are well formed *)
Lemma shown_ivd_ok n l : forallb ivd_ok (map (shown_ivd n) l) = forallb ivd_ok l.
Proof. induction l as [|i l IH]; [reflexivity|]. cbn [map forallb]. now rewrite IH. Qed.
Lemma shown_fields_ok fs : fields_ok fs -> fields_ok (map shown_fdef fs).
Proof.
  intros (l & -> & N & F). exists (map shown_fdef l). split; [reflexivity|]. split; [now destruct l|]. clear N. induction l as [|f l IH]; [reflexivity|]. cbn [map forallb] in *.
  apply Bool.andb_true_iff in F. destruct F as (F1 & F2). rewrite (IH F2). unfold fdef_ok in *. cbn [shown_fdef fd_builtin fd_args fd_dirs]. now rewrite shown_ivd_ok, F1.
Qed.
Lemma map_neq_nil {A B} (f : A -> B) l : l <> [] -> map f l <> [].
Proof. now destruct l. Qed.
Lemma shown_tdef_ok t : sysdef_ok (SysType t) -> sysdef_ok (SysType (shown_tdef t)).
Proof.
  destruct t as [b|s|o|i|e|u|i]; cbn [shown_tdef sysdef_ok]; cbn; auto.
  - intros (A & B & C). auto using shown_fields_ok.
  - intros (A & B & C). rewrite shown_ivd_ok. auto using map_neq_nil.
  - intros (A & B & C & D). repeat split; auto using map_neq_nil. rewrite <- B. clear. induction (en_values e) as [|v l IH]; [reflexivity|]. cbn [map forallb]. now rewrite IH.
  - intros (A & B). auto using shown_fields_ok.
Qed.
Lemma shown_ddef_ok d : sysdef_ok (SysDirective d) -> sysdef_ok (SysDirective (shown_ddef d)).
Proof. cbn. rewrite shown_ivd_ok. auto. Qed.
(** ** The root types with their introspection fields *)
Definition rooted (q : name) : tdef -> tdef := with_root_fields [q].
Lemma rooted_builtin q t : td_builtin (rooted q t) = td_builtin t.
Proof. destruct t; auto. cbn. now destruct (_ || _). Qed.
Lemma rooted_tokens q lead t : tk_tdef lead (shown_tdef (rooted q t)) = tk_tdef lead (shown_tdef t) /\ tk_tdef lead (rooted q t) = tk_tdef lead t.
Proof.
  destruct t; auto. unfold rooted. cbn [with_root_fields]. destruct (_ || _); auto. cbn [shown_tdef tk_tdef ob_name ob_desc ob_ifaces ob_dirs ob_fields].
  unfold written_fields. rewrite map_app, !filter_app. change (filter _ (map shown_fdef [schema_field; type_field])) with (@nil fdef). change (filter _ [schema_field; type_field]) with (@nil fdef). now rewrite !app_nil_r.
Qed.
Lemma with_root_fields_query roots q t : (forall n, tmem n roots = true -> n = q) -> (q = tx "Query" \/ In q roots) -> with_root_fields roots t = rooted q t.
Proof.
  intros H K. destruct t; auto. unfold rooted. cbn [with_root_fields]. replace (teqb (ob_name d) (tx "Query") || tmem (ob_name d) roots) with (teqb (ob_name d) (tx "Query") || tmem (ob_name d) [q]); [reflexivity|].
  destruct (teqb (ob_name d) (tx "Query")) eqn:Q; [reflexivity|]. cbn [orb]. destruct (tmem (ob_name d) roots) eqn:E.
  - apply H in E. apply tmem_In. now left.
  - apply tmem_false in E. apply tmem_false. intros [J|[]]. rewrite J in K. destruct K as [K|K]; [rewrite K, teqb_refl in Q; discriminate | auto].
Qed.
Lemma query_roots_of d s : explicit_roots d s \/ implicit_roots d s -> forall t, with_root_fields (query_roots d) t = rooted (s_query s) t.
Proof.
  intros [(e & E & _ & _ & Q & _)|(E & _ & _ & Q & _)] t; apply with_root_fields_query.
  - intros n I. apply tmem_In in I. unfold query_roots in I. rewrite E in I. cbn [flat_map] in I. rewrite app_nil_r in I. apply in_flat_map in I. destruct I as ((ty & m) & I & J).
    destruct ty; cbn in J; try destruct J as [->|[]]; try destruct J. unfold declares, declarations in Q. assert (I' : In (OQuery, n) [(OQuery, s_query s)]) by (rewrite <- Q; apply filter_In; auto).
    destruct I' as [I'|[]]. congruence.
  - right. unfold query_roots. rewrite E. cbn [flat_map]. rewrite app_nil_r. apply in_flat_map. exists (OQuery, s_query s). split; [|now left].
    unfold declares, declarations in Q. assert (I : In (OQuery, s_query s) (filter (fun p => optype_eqb (fst p) OQuery) (es_roots e))) by (rewrite Q; now left). now apply filter_In in I.
  - intros n I. unfold query_roots in I. rewrite E in I. discriminate.
  - left. exact Q.
Qed.
Lemma is_implicit_spec s : is_implicit s = true <-> conventional_names s.
Proof.
  unfold is_implicit, conventional_names. rewrite !Bool.andb_true_iff, teqb_eq, Nat.eqb_eq.
  assert (N : forall n o, none_or n o = true <-> o = None \/ o = Some n).
  { intros n [m|]; cbn; [rewrite teqb_eq|]; split; auto; [intros ->; auto | intros [H|H]; congruence]. }
  rewrite !N. destruct (s_desc s), (s_dirs s); cbn; intuition (try discriminate; try congruence).
Qed.

(** ** Reading *)
Section Read.
  Variable so : list builtin.
  Variable dor : list ddef.
  Hypothesis scalars : Permutation so all_builtins.
  Hypothesis directives : Permutation dor all_builtin_directives.
  (** the schema that the definitions [xs] give *)
  Variable xs : list sysdef.
  Hypothesis XS : Forall sysdef_ok xs.
  Variable s : schema.
  Hypothesis S : resolve (completed so dor xs) = inl s.
  Notation q := (s_query s).
  Notation added xs := (map DBuiltin (filter (fun b => unused (map td_name (sys_types xs)) (builtin_name b)) so)).
  Notation dadded xs := (filter (fun b => unused (map dd_name (sys_ddefs xs)) (dd_name b)) dor).
  Lemma Sof : schema_of (completed so dor xs) s.
  Proof using S. now apply resolve_schema. Qed.
  Lemma completed_types ys : df_types (completed so dor ys) = map (with_root_fields (query_roots (completed so dor ys))) (introspection_types ++ sys_types ys ++ added ys).
  Proof using.
    unfold completed, add_root_fields. cbn [df_types]. unfold insert_directives, insert_scalars, extend. cbn [df_types new_document query_roots df_schemas]. rewrite <- app_assoc. f_equal. f_equal. f_equal. f_equal.
    apply filter_ext. intros b. apply unused_types.
  Qed.
  Lemma types_of : df_types (completed so dor xs) = map (rooted q) (introspection_types ++ sys_types xs ++ added xs).
  Proof using S. rewrite completed_types. apply map_ext. apply query_roots_of. apply (so_roots _ _ Sof). Qed.
  Lemma user_type t : In t (sys_types xs) -> sysdef_ok (SysType t).
  Proof using XS. intros I. apply in_flat_map in I. destruct I as (x & I & J). destruct x; cbn in J; try destruct J as [->|[]]; try destruct J. rewrite Forall_forall in XS. now apply XS. Qed.
  Lemma user_ddef t : In t (sys_ddefs xs) -> sysdef_ok (SysDirective t).
  Proof using XS. intros I. apply in_flat_map in I. destruct I as (x & I & J). destruct x; cbn in J; try destruct J as [->|[]]; try destruct J. rewrite Forall_forall in XS. now apply XS. Qed.
  Lemma user_builtin t : sysdef_ok (SysType t) -> td_builtin t = false.
  Proof using. destruct t; cbn; tauto. Qed.
  Lemma filter_all {A} (f : A -> bool) l : (forall a, In a l -> f a = true) -> filter f l = l.
  Proof using. induction l as [|a l IH]; intros H; [reflexivity|]. cbn. rewrite (H a) by now left. f_equal. apply IH. intros b I. apply H. now right. Qed.
  Lemma own_types_perm : Permutation (own_types s) (map (rooted q) (sys_types xs)).
  Proof using S XS.
    unfold own_types. rewrite <- (perm_filter _ _ _ (so_types _ _ Sof)), types_of, !map_app, !filter_app.
    rewrite (proj2 (filter_nil _ (map (rooted q) introspection_types))).
    2:{ intros t I. apply in_map_iff in I. destruct I as (u & <- & I). rewrite rooted_builtin. repeat (destruct I as [<-|I]; [reflexivity|]). destruct I. }
    rewrite (proj2 (filter_nil _ (map (rooted q) (added xs)))).
    2:{ intros t I. apply in_map_iff in I. destruct I as (u & <- & I). rewrite rooted_builtin. apply in_map_iff in I. destruct I as (b & <- & _). reflexivity. }
    rewrite app_nil_r. cbn [app]. rewrite filter_all; [reflexivity|]. intros t I. apply in_map_iff in I. destruct I as (u & <- & I). rewrite rooted_builtin. now rewrite (user_builtin u (user_type u I)).
  Qed.
  Lemma own_ddefs_perm : Permutation (own_ddefs s) (sys_ddefs xs).
  Proof using S XS directives.
    unfold own_ddefs. rewrite <- (perm_filter _ _ _ (so_ddefs _ _ Sof)).
    replace (df_ddefs (completed so dor xs)) with (sys_ddefs xs ++ dadded xs) by reflexivity. rewrite filter_app.
    rewrite (proj2 (filter_nil _ (dadded xs))).
    2:{ intros d I. apply filter_In in I. destruct I as (I & _). apply (Permutation_in _ directives) in I. repeat (destruct I as [<-|I]; [reflexivity|]). destruct I. }
    rewrite app_nil_r, filter_all; [reflexivity|]. intros d I. destruct (user_ddef d I) as (_ & _ & ->). reflexivity.
  Qed.
  (** the definitions that the printed text has *)
  Lemma unrooted : exists us, Permutation us (sys_types xs) /\ own_types s = map (rooted q) us.
  Proof using S XS. destruct (Permutation_map_inv _ _ own_types_perm) as (us & E & P). exists us. split; [now symmetry | exact E]. Qed.
  Definition printed_definitions (us : list tdef) : list sysdef :=
    map SysDirective (map shown_ddef (own_ddefs s)) ++ map SysType (map shown_tdef us) ++
    (if is_implicit s then [] else [SysSchema (schema_definition_of (shown_schema s))]).
  Section Us.
    Variable us : list tdef.
    Hypothesis U : Permutation us (sys_types xs).
    Hypothesis OU : own_types s = map (rooted q) us.
    Notation ys := (printed_definitions us).
    Lemma ys_tokens : concat (map (tk_sysdef false) (shown_definitions s)) = concat (map (fun p => tk_sysdef (fst p) (snd p)) (map (fun x => (false, x)) ys)).
    Proof using OU.
      unfold shown_definitions, printed_definitions. rewrite OU. rewrite !map_app, !map_map, !concat_app. cbn [fst snd]. f_equal.
      apply (f_equal2 (@app token)); [|destruct (is_implicit s); reflexivity].
      cbn [tk_sysdef]. f_equal. apply map_ext. intros t. apply rooted_tokens.
    Qed.
    Lemma schema_dirs_ok : directives_ok true (s_dirs s) = true.
    Proof using S XS.
      destruct (so_roots _ _ Sof) as [(e & E & _ & -> & _)|(_ & _ & -> & _)]; [|reflexivity].
      assert (I : In e (sys_schemas xs)) by (change (sys_schemas xs) with (df_schemas (completed so dor xs)); rewrite E; now left).
      apply in_flat_map in I. destruct I as (x & I & J). destruct x; cbn in J; try destruct J as [->|[]]; try destruct J. rewrite Forall_forall in XS. apply XS in I. apply I.
    Qed.
    Lemma ys_ok : Forall sysdef_ok ys.
    Proof using S XS U directives.
      unfold printed_definitions. rewrite !Forall_app, !Forall_map. repeat split.
      - apply Forall_forall. intros d I. apply shown_ddef_ok, user_ddef. now apply (Permutation_in _ own_ddefs_perm).
      - apply Forall_forall. intros t I. apply shown_tdef_ok, user_type. now apply (Permutation_in _ U).
      - destruct (is_implicit s); constructor; [|constructor]. cbn [sysdef_ok]. split; [exact schema_dirs_ok | discriminate].
    Qed.
    Lemma ys_types : sys_types ys = map shown_tdef us.
    Proof using.
      unfold printed_definitions, sys_types. rewrite !flat_map_app.
      assert (A : forall l, flat_map (fun x => match x with SysType t => [t] | _ => [] end) (map SysDirective l) = []) by (induction l; auto).
      assert (B : forall l, flat_map (fun x => match x with SysType t => [t] | _ => [] end) (map SysType l) = l) by (induction l; cbn; congruence).
      rewrite A, B. cbn [app]. destruct (is_implicit s); cbn; apply app_nil_r.
    Qed.
    Lemma ys_ddefs : sys_ddefs ys = map shown_ddef (own_ddefs s).
    Proof using.
      unfold printed_definitions, sys_ddefs. rewrite !flat_map_app.
      assert (A : forall l, flat_map (fun x => match x with SysDirective t => [t] | _ => [] end) (map SysType l) = []) by (induction l; auto).
      assert (B : forall l, flat_map (fun x => match x with SysDirective t => [t] | _ => [] end) (map SysDirective l) = l) by (induction l; cbn; congruence).
      rewrite A, B. cbn [app]. destruct (is_implicit s); cbn; apply app_nil_r.
    Qed.
    Lemma ys_schemas : sys_schemas ys = if is_implicit s then [] else [schema_definition_of (shown_schema s)].
    Proof using.
      unfold printed_definitions, sys_schemas. rewrite !flat_map_app.
      assert (A : forall l, flat_map (fun x => match x with SysSchema t => [t] | _ => [] end) (map SysType l) = []) by (induction l; auto).
      assert (B : forall l, flat_map (fun x => match x with SysSchema t => [t] | _ => [] end) (map SysDirective l) = []) by (induction l; cbn; congruence).
      rewrite A, B. cbn [app]. destruct (is_implicit s); reflexivity.
    Qed.
    Lemma unused_perm l l' n : Permutation l l' -> unused l n = unused l' n.
    Proof using.
      intros P. destruct (unused l n) eqn:E, (unused l' n) eqn:E'; auto; exfalso.
      - apply unused_In in E. assert (~ unused l' n = true) by congruence. apply H. apply unused_In. intros I. apply E. now apply (Permutation_in _ (Permutation_sym P)).
      - apply unused_In in E'. assert (~ unused l n = true) by congruence. apply H. apply unused_In. intros I. apply E'. now apply (Permutation_in _ P).
    Qed.
    Lemma ys_added : added ys = added xs.
    Proof using U.
      f_equal. apply filter_ext. intros b. rewrite ys_types, shown_names. apply unused_perm. now apply Permutation_map.
    Qed.
    Lemma ys_dadded : dadded ys = dadded xs.
    Proof using S XS directives.
      apply filter_ext. intros b. rewrite ys_ddefs, shown_dnames. apply unused_perm, Permutation_map, own_ddefs_perm.
    Qed.
    Lemma ys_root_fields t : with_root_fields (query_roots (completed so dor ys)) t = rooted q t.
    Proof using.
      unfold query_roots. change (df_schemas (completed so dor ys)) with (sys_schemas ys). rewrite ys_schemas. destruct (is_implicit s) eqn:E.
      - apply is_implicit_spec in E. destruct E as (_ & _ & Q & _). apply with_root_fields_query; [discriminate | now left].
      - replace (flat_map _ _) with [q]; [reflexivity|]. cbn. destruct (s_mutation s), (s_subscription s); reflexivity.
    Qed.
    Lemma ys_df_types : Permutation (df_types (completed so dor ys)) (map shown_tdef (df_types (completed so dor xs))).
    Proof using U S.
      rewrite completed_types, types_of, (map_ext _ _ ys_root_fields), ys_added, ys_types. rewrite map_map.
      rewrite (map_ext (fun x => shown_tdef (rooted q x)) (fun x => rooted q (shown_tdef x))) by (intros t; apply shown_root_fields). rewrite <- (map_map shown_tdef (rooted q)).
      apply Permutation_map. rewrite !map_app, shown_introspection. apply Permutation_app_head. apply Permutation_app; [now apply Permutation_map|].
      rewrite map_map. reflexivity.
    Qed.
    Lemma ys_df_ddefs : Permutation (df_ddefs (completed so dor ys)) (map shown_ddef (df_ddefs (completed so dor xs))).
    Proof using XS S directives.
      change (df_ddefs (completed so dor ys)) with (sys_ddefs ys ++ dadded ys). change (df_ddefs (completed so dor xs)) with (sys_ddefs xs ++ dadded xs).
      rewrite ys_dadded, ys_ddefs, map_app. apply Permutation_app; [apply Permutation_map, own_ddefs_perm|].
      assert (E : map shown_ddef (dadded xs) = dadded xs); [|now rewrite E]. rewrite <- (map_id (dadded xs)) at 2. apply map_ext_in. intros d I. apply filter_In in I. destruct I as (I & _).
      apply shown_builtin_directives. now apply (Permutation_in _ directives).
    Qed.
    Lemma unnamed_printed n : unnamed (df_types (completed so dor ys)) n <-> ~ In n (map td_name (s_types s)).
    Proof using U S.
      unfold unnamed. rewrite in_map_iff. split.
      - intros H (t & E & I). apply (H (shown_tdef t)); [|now rewrite shown_name]. apply (Permutation_in _ (Permutation_sym ys_df_types)). apply in_map. now apply (Permutation_in _ (Permutation_sym (so_types _ _ Sof))).
      - intros H t I E. apply (Permutation_in _ ys_df_types) in I. apply in_map_iff in I. destruct I as (u & <- & I). rewrite shown_name in E. apply H. exists u. split; [exact E|]. now apply (Permutation_in _ (so_types _ _ Sof)).
    Qed.
    Lemma printed_resolves : roots_recognisable s -> resolve (completed so dor ys) = inl (shown_schema s).
    Proof using U S XS directives.
      intros RR. apply resolve_schema. pose proof Sof as [HT HTs HD HDs HR HRo HO]. split.
      - cbn [shown_schema s_types]. rewrite ys_df_types. now apply Permutation_map.
      - cbn [shown_schema s_types]. now rewrite shown_names.
      - cbn [shown_schema s_ddefs]. rewrite ys_df_ddefs. now apply Permutation_map.
      - cbn [shown_schema s_ddefs]. now rewrite shown_dnames.
      - apply (references_perm (map shown_tdef (df_types (completed so dor xs))) _ (map shown_ddef (df_ddefs (completed so dor xs)))); [symmetry; apply ys_df_types | symmetry; apply ys_df_ddefs | now apply references_shown].
      - unfold explicit_roots, implicit_roots. change (df_schemas (completed so dor ys)) with (sys_schemas ys). rewrite ys_schemas. destruct (is_implicit s) eqn:E.
        + right. apply is_implicit_spec in E. destruct (RR E) as (M & Su). destruct E as (E1 & E2 & E3 & E4 & E5). cbn [shown_schema s_desc s_dirs s_query s_mutation s_subscription]. rewrite E1.
          repeat split; auto.
          * destruct (s_mutation s) as [m|] eqn:Em; unfold conventional; [destruct E4; congruence|]. apply unnamed_printed. intros I. now apply (M I).
          * destruct (s_subscription s) as [m|] eqn:Em; unfold conventional; [destruct E5; congruence|]. apply unnamed_printed. intros I. now apply (Su I).
        + left. exists (schema_definition_of (shown_schema s)). unfold declares, declarations, schema_definition_of. cbn [shown_schema s_desc s_dirs s_query s_mutation s_subscription es_desc es_dirs es_roots].
          destruct (s_mutation s), (s_subscription s); cbn; auto 10.
      - assert (ON : forall n, object_named (df_types (completed so dor xs)) n -> object_named (df_types (completed so dor ys)) n).
        { intros n H. apply object_shown in H. destruct H as (o & I & E). exists o. split; [|exact E]. exact (Permutation_in _ (Permutation_sym ys_df_types) I). }
        destruct HO as (O1 & O2 & O3). repeat split; cbn [shown_schema s_query s_mutation s_subscription]; auto.
    Qed.
    Lemma printed_roots s' : resolve (completed so dor ys) = inl s' -> same_roots s' s -> roots_recognisable s.
    Proof using U S.
      intros H (E1 & E2 & E3) CN. apply resolve_schema in H. destruct (so_roots _ _ H) as [(e & E & _)|(_ & _ & _ & _ & M & Su)].
      - change (df_schemas (completed so dor ys)) with (sys_schemas ys) in E. rewrite ys_schemas in E. apply is_implicit_spec in CN. rewrite CN in E. discriminate.
      - split.
        + intros T N. rewrite E2, N in M. cbn in M. apply unnamed_printed in M. exact (M T).
        + intros T N. rewrite E3, N in Su. cbn in Su. apply unnamed_printed in Su. exact (Su T).
    Qed.
    Lemma ys_some : ys <> [].
    Proof using U S.
      clear OU. unfold printed_definitions. destruct (is_implicit s) eqn:E.
      - apply is_implicit_spec in E. destruct E as (_ & _ & E & _). destruct (so_objects _ _ Sof) as ((o & I & N) & _). rewrite types_of in I. apply in_map_iff in I. destruct I as (t & Et & I).
        assert (Nt : td_name t = tx "Query") by (rewrite <- E, <- N; change (ob_name o) with (td_name (DObject o)); rewrite <- Et; symmetry; apply with_root_fields_name).
        apply in_app_iff in I. destruct I as [I|I].
        { exfalso. repeat (destruct I as [<-|I]; [discriminate|]). destruct I. }
        apply in_app_iff in I. destruct I as [I|I].
        { apply (Permutation_in _ (Permutation_sym U)) in I. destruct us; [destruct I|]. intros K. apply app_eq_nil in K. destruct K as (_ & K). discriminate. }
        apply in_map_iff in I. destruct I as (b & <- & _). discriminate.
      - intros K. apply app_eq_nil in K. destruct K as (_ & K). apply app_eq_nil in K. destruct K as (_ & K). discriminate.
    Qed.
  End Us.
  (** names *)
  Variable parse_f64 : text -> option N.
  Variable print_float : N -> text.
  Notation writable := (writable parse_f64 print_float).
  Variable leads : list bool.
  Hypothesis W : Forall2 (fun lead x => Forall writable (tk_sysdef lead x)) leads xs.
  Lemma W_of x : In x xs -> exists lead, Forall writable (tk_sysdef lead x).
  Proof using W. clear - W. induction W as [|l a ls as_ H F IH]; [intros []|]. intros [<-|I]; [eauto | auto]. Qed.
  Lemma user_name t : In t (sys_types xs) -> is_name (td_name t).
  Proof using W XS.
    intros I. pose proof (user_type t I) as O. apply in_flat_map in I. destruct I as (x & I & J). destruct x; cbn in J; try destruct J as [->|[]]; try destruct J. apply W_of in I. destruct I as (lead & I).
    assert (K : In (TkName (td_name t)) (tk_sysdef lead (SysType t))).
    { destruct t; cbn [tk_sysdef tk_tdef td_name]; try destruct O; apply in_or_app; right; right; now left. }
    rewrite Forall_forall in I. exact (I _ K).
  Qed.
  Ltac wn := cbn; unfold name_continue, name_start, digit; split; [lia|]; repeat (apply Forall_cons; [lia|]); apply Forall_nil.
  Lemma object_name n : object_named (df_types (completed so dor xs)) n -> is_name n.
  Proof using W XS S.
    intros (o & I & <-). rewrite types_of in I. apply in_map_iff in I. destruct I as (t & Et & I).
    assert (Nt : ob_name o = td_name t) by (change (ob_name o) with (td_name (DObject o)); rewrite <- Et; apply with_root_fields_name). rewrite Nt.
    apply in_app_iff in I. destruct I as [I|I]; [|apply in_app_iff in I; destruct I as [I|I]; [now apply user_name|]].
    - repeat (destruct I as [<-|I]; [wn|]). destruct I.
    - apply in_map_iff in I. destruct I as (b & <- & _). destruct b; wn.
  Qed.
  Lemma printed_source digits us : Permutation us (sys_types xs) -> own_types s = map (rooted q) us ->
    source digits parse_f64 (concat (map (fun p => tk_sysdef (fst p) (snd p)) (map (fun x => (false, x)) (printed_definitions us)))) (print_schema print_float s).
  Proof using W XS S directives.
    intros U OU. rewrite <- ys_tokens by exact OU. apply closed_source. destruct (so_objects _ _ Sof) as (O1 & O2 & O3). apply closed_schema.
    - apply Forall_forall. intros d I. apply (Permutation_in _ own_ddefs_perm) in I. apply in_flat_map in I. destruct I as (x & I & J). destruct x; cbn in J; try destruct J as [->|[]]; try destruct J. now apply W_of in I.
    - apply Forall_forall. intros t I. rewrite OU in I. apply in_map_iff in I. destruct I as (u & <- & I). apply (Permutation_in _ U) in I. apply in_flat_map in I. destruct I as (x & I & J).
      destruct x; cbn in J; try destruct J as [->|[]]; try destruct J. apply W_of in I. destruct I as (lead & I). exists lead. cbn [tk_sysdef] in I. now rewrite (proj2 (rooted_tokens q lead u)).
    - destruct (so_roots _ _ Sof) as [(e & E & _ & -> & _)|(_ & _ & -> & _)]; [|constructor].
      assert (I : In e (sys_schemas xs)) by (change (sys_schemas xs) with (df_schemas (completed so dor xs)); rewrite E; now left).
      apply in_flat_map in I. destruct I as (x & I & J). destruct x; cbn in J; try destruct J as [->|[]]; try destruct J. apply W_of in I. destruct I as (lead & I). cbn [tk_sysdef] in I. unfold tk_esdef in I.
      apply Forall_app in I. destruct I as (_ & I). inversion_clear I as [|? ? _ I']. apply Forall_app in I'. tauto.
    - now apply object_name.
    - intros n E. apply object_name; auto.
    - intros n E. apply object_name; auto.
  Qed.
End Read.
