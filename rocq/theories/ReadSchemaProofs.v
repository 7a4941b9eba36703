(** Schemas that are read from texts have GraphQL names, each type and directive once, and the floats that were read. *)
From Coq Require Import String Sorted Permutation.
From Verif Require Import Base Ast Maps Lexer LexerSpec LexerProps Parser ParserSpec DefParser DefParserSpec DefParserProofs DefParserProps Resolve ResolveSpec ResolveProofs ResolveProps
  DefPrinterReadProofs ValueEqSpec Compare CompareSpec CompareProps EndToEndProofs ChangeTextSpec ChangeTextProps ReadSchemaSpec.
Local Open Scope string_scope.
Local Open Scope list_scope.

Section Tokens.
  Definition nice_token (t : token) : Prop :=
    match t with TkName n => is_name n | TkFloat b => f64 b /\ f64_number b <> NaN | TkInt z => fits_i32 z | _ => True end.
  Notation nice := (Forall nice_token).
  Definition nice_dir (d : directive) : Prop := is_name (dir_name d) /\ Forall (fun a => is_name (fst a) /\ constant (snd a)) (dir_args d).
  Definition nice_dirs (ds : list directive) : Prop := Forall nice_dir ds.
  Definition nice_ivd (i : ivd) : Prop := is_name (iv_name i) /\ (forall v, iv_default i = Some v -> constant v) /\ nice_dirs (iv_dirs i).
  Definition nice_fdef (f : fdef) : Prop := is_name (fd_name f) /\ Forall nice_ivd (fd_args f) /\ nice_dirs (fd_dirs f).
  Definition nice_fdefs (l : list fdef) : Prop := In typename_field l /\ (exists f, In f l /\ ~ In f [typename_field; schema_field; type_field]) /\ Forall nice_fdef l.
  Definition nice_evd (v : evd) : Prop := is_name (ev_name v) /\ ~ In (ev_name v) [tx "true"; tx "false"; tx "null"] /\ nice_dirs (ev_dirs v).
  Definition nice_ddef (d : ddef) : Prop := is_name (dd_name d) /\ Forall nice_ivd (dd_args d) /\ dd_locs d <> [].
  Definition nice_tdef (t : tdef) : Prop :=
    is_name (td_name t) /\
    match t with
    | DBuiltin _ => True
    | DScalar d => nice_dirs (sc_dirs d)
    | DObject d => Forall is_name (ob_ifaces d) /\ nice_dirs (ob_dirs d) /\ nice_fdefs (ob_fields d)
    | DInterface d => Forall is_name (if_ifaces d) /\ nice_dirs (if_dirs d) /\ nice_fdefs (if_fields d)
    | DUnion d => nice_dirs (un_dirs d) /\ Forall is_name (un_members d) /\ un_members d <> [] /\ un_fields d = [typename_field]
    | DInput d => nice_dirs (io_dirs d) /\ Forall nice_ivd (io_fields d) /\ io_fields d <> []
    | DEnum d => nice_dirs (en_dirs d) /\ Forall nice_evd (en_values d) /\ en_values d <> []
    end.

  Lemma source_nice digits parse_f64 ts s : reads_numbers parse_f64 -> source digits parse_f64 ts s -> nice ts.
  Proof. intros HP. induction 1 as [|w t l ts s Hw Hl Ha Hs IH]; constructor; auto. destruct Hl as [| | | |l b L E| |]; cbn; auto. now apply (HP l b E). Qed.
  Lemma nice_concat {A} (tk : A -> list token) l : nice (concat (map tk l)) -> Forall (fun a => nice (tk a)) l.
  Proof. induction l as [|a l IH]; cbn; [constructor|]. rewrite Forall_app. intros (H & K). constructor; auto. Qed.
  Lemma nice_all {A} (p : A -> bool) (Q : A -> Prop) (tk : A -> list token) l : (forall a, p a = true -> nice (tk a) -> Q a) -> forallb p l = true -> nice (concat (map tk l)) -> Forall Q l.
  Proof. intros H F K. apply nice_concat in K. rewrite Forall_forall in *. rewrite forallb_forall in F. auto. Qed.
  Lemma reserved_words n : reserved n = false -> ~ In n [tx "true"; tx "false"; tx "null"].
  Proof. unfold reserved. rewrite !orb_false_iff. intros ((A & B) & C) [<-|[<-|[<-|[]]]]; vm_compute in A, B, C; discriminate. Qed.
  Lemma nice_value v : value_ok true v = true -> nice (tk_value v) -> constant v.
  Proof.
    induction v as [x|z|f|s|b| |e|vs IH|es IH] using value_ind'; intros O H; try (constructor; fail); cbn [value_ok] in O; try discriminate.
    - constructor. now inversion H.
    - apply Forall_cons_iff in H as ((A & B) & _). now constructor.
    - constructor; [now inversion H|]. apply reserved_words. now destruct (reserved e).
    - constructor. cbn [tk_value] in H. apply Forall_cons_iff in H as (_ & H). rewrite Forall_app in H. destruct H as (H & _). apply nice_concat in H.
      rewrite Forall_forall in *. rewrite forallb_forall in O. intros v I. apply IH; auto.
    - constructor. cbn [tk_value] in H. apply Forall_cons_iff in H as (_ & H). rewrite Forall_app in H. destruct H as (H & _). apply nice_concat in H.
      rewrite Forall_forall in *. rewrite forallb_forall in O. intros v I. pose proof (H _ I) as K. apply Forall_cons_iff in K as (N & K). apply Forall_cons_iff in K as (_ & K).
      split; [exact N|]. apply IH; auto.
  Qed.
  Ltac sn H := repeat (rewrite ?Forall_app, ?Forall_cons_iff in H; cbn [nice_token] in H).
  Lemma nice_directives ds : directives_ok true ds = true -> nice (tk_directives ds) -> nice_dirs ds.
  Proof.
    intros O H. unfold tk_directives, directives_ok in *. eapply nice_all; [|exact O|exact H]. intros d Od Hd. unfold nice_dir, tk_directive, tk_arguments, arguments_ok in *. sn Hd. destruct Hd as (_ & N & Hd).
    split; [exact N|]. destruct (dir_args d) as [|a l]; [constructor|]. apply Forall_cons_iff in Hd as (_ & Hd). apply Forall_app in Hd as (Hd & _). eapply nice_all; [|exact Od|exact Hd]. intros x Ox Hx.
    unfold tk_argument in Hx. sn Hx. destruct Hx as (Nx & _ & Hx). split; [exact Nx|]. now apply nice_value.
  Qed.
  Lemma nice_tk_ivd i : ivd_ok i = true -> nice (tk_ivd i) -> nice_ivd i.
  Proof.
    unfold tk_ivd, nice_ivd, ivd_ok. rewrite andb_true_iff. intros (Od & Ox) H. sn H. destruct H as (_ & N & _ & _ & D & X). split; [exact N|]. split; [|now apply nice_directives].
    intros v E. rewrite E in D, Od. cbn [tk_default default_ok] in D, Od. sn D. now apply nice_value.
  Qed.
  Lemma nice_args_def l : forallb ivd_ok l = true -> nice (tk_args_def l) -> Forall nice_ivd l.
  Proof.
    unfold tk_args_def. destruct l as [|a l]; [constructor|]. intros O H. apply Forall_cons_iff in H as (_ & H). apply Forall_app in H as (H & _). eapply nice_all; [apply nice_tk_ivd|exact O|exact H].
  Qed.
  Lemma nice_braced {A} (p : A -> bool) (Q : A -> Prop) (tk : A -> list token) l : (forall a, p a = true -> nice (tk a) -> Q a) -> forallb p l = true -> nice (braced tk l) -> Forall Q l.
  Proof. unfold braced. intros K O H. apply Forall_cons_iff in H as (_ & H). apply Forall_app in H as (H & _). eapply nice_all; eauto. Qed.
  Lemma nice_tk_fdef f : fdef_ok f = true -> nice (tk_fdef f) -> nice_fdef f.
  Proof. unfold tk_fdef, nice_fdef, fdef_ok. rewrite !andb_true_iff. intros ((_ & Oa) & Ox) H. sn H. destruct H as (_ & N & A & _ & _ & X). auto using nice_args_def, nice_directives. Qed.
  Lemma nice_typename : nice_fdef typename_field.
  Proof. split; [apply name_ok_ok; reflexivity|]. repeat constructor. Qed.
  Lemma nice_fields fs : fields_ok fs -> nice (braced tk_fdef (written_fields fs)) -> nice_fdefs fs.
  Proof.
    intros (l & -> & NE & F) H. split; [now left|]. split.
    - destruct l as [|f l]; [congruence|]. exists f. split; [right; now left|]. cbn [forallb] in F. apply andb_true_iff in F as (F & _). unfold fdef_ok in F.
      intros [<-|[<-|[<-|[]]]]; vm_compute in F; discriminate.
    - constructor; [apply nice_typename|]. cbn [written_fields filter typename_field fd_builtin negb] in H.
      replace (filter (fun f => negb (fd_builtin f)) l) with l in H; [eapply nice_braced; [apply nice_tk_fdef|exact F|exact H]|].
      clear H NE. induction l as [|f l IH]; [reflexivity|]. cbn [forallb] in F. apply andb_true_iff in F as (F & F'). cbn [filter]. unfold fdef_ok in F. destruct (fd_builtin f); [discriminate|].
      cbn [negb]. f_equal. auto.
  Qed.
  Lemma nice_sep_names lead sep l : nice (tk_sep_list lead sep tk_name l) -> Forall is_name l.
  Proof.
    destruct l as [|n l]; [constructor|]. cbn [tk_sep_list]. unfold tk_name at 1. intros H. apply Forall_app in H as (_ & H). apply Forall_app in H as (N & H). constructor; [now inversion N|].
    eapply (nice_all (fun _ => true)); [|now apply forallb_forall|exact H]. intros m _ Hm. cbv beta in Hm. unfold tk_name in Hm. sn Hm. tauto.
  Qed.
  Lemma nice_implements lead l : nice (tk_implements lead l) -> Forall is_name l.
  Proof. unfold tk_implements. destruct l as [|n l]; [constructor|]. intros H. apply Forall_cons_iff in H as (_ & H). now apply nice_sep_names in H. Qed.
  Lemma nice_tk_evd v : evd_ok v = true -> nice (tk_evd v) -> nice_evd v.
  Proof.
    unfold tk_evd, nice_evd, evd_ok. rewrite andb_true_iff. intros (R & O) H. sn H. destruct H as (_ & N & X). split; [exact N|]. split; [|now apply nice_directives].
    apply reserved_words. now destruct (reserved (ev_name v)).
  Qed.
  Lemma nice_tk_ddef lead d : sysdef_ok (SysDirective d) -> nice (tk_ddef lead d) -> nice_ddef d.
  Proof. unfold tk_ddef, nice_ddef. intros (O & L & _) H. sn H. destruct H as (_ & _ & _ & N & A & _). auto using nice_args_def. Qed.
  Lemma nice_tk_esdef e : sysdef_ok (SysSchema e) -> nice (tk_esdef e) -> nice_dirs (es_dirs e).
  Proof. unfold tk_esdef. intros (O & _) H. sn H. destruct H as (_ & _ & X & _). now apply nice_directives. Qed.
  Lemma nice_tk_tdef lead t : sysdef_ok (SysType t) -> nice (tk_tdef lead t) -> nice_tdef t.
  Proof.
    unfold nice_tdef. destruct t as [b|d|d|d|d|d|d]; cbn [sysdef_ok tk_tdef td_name]; [intros []|..]; intros O H; apply Forall_app in H as (_ & H);
      apply Forall_cons_iff in H as (_ & H); apply Forall_cons_iff in H as (N & H); (split; [exact N|]).
    - now apply nice_directives.
    - destruct O as (D & F & _). apply Forall_app in H as (I & H). apply Forall_app in H as (X & H). split; [now apply nice_implements in I|]. split; [now apply nice_directives|]. now apply nice_fields.
    - destruct O as (D & F & NE). apply Forall_app in H as (X & H). split; [now apply nice_directives|]. split; [|exact NE]. eapply nice_braced; [apply nice_tk_ivd|exact F|exact H].
    - destruct O as (D & F & NE & _). apply Forall_app in H as (X & H). split; [now apply nice_directives|]. split; [|exact NE]. eapply nice_braced; [apply nice_tk_evd|exact F|exact H].
    - destruct O as (D & NE & F). apply Forall_app in H as (X & H). split; [now apply nice_directives|]. apply Forall_cons_iff in H as (_ & H). now apply nice_sep_names in H.
    - destruct O as (D & F). apply Forall_app in H as (I & H). apply Forall_app in H as (X & H). split; [now apply nice_implements in I|]. split; [now apply nice_directives|]. now apply nice_fields.
  Qed.

  (** the built-in definitions *)
  Definition no_dirs (ds : list directive) : bool := match ds with [] => true | _ => false end.
  Definition ivd_b (i : ivd) : bool := name_ok (iv_name i) && match iv_default i with Some (VBool _) | Some (VStr _) | None => true | _ => false end && no_dirs (iv_dirs i).
  Definition fdef_b (f : fdef) : bool := name_ok (fd_name f) && forallb ivd_b (fd_args f) && no_dirs (fd_dirs f).
  Definition fdefs_b (l : list fdef) : bool :=
    match l with
    | _ :: g :: _ => negb (tmem (fd_name g) (map fd_name [typename_field; schema_field; type_field]))
    | _ => false
    end && forallb fdef_b l.
  Definition tdef_b (t : tdef) : bool :=
    name_ok (td_name t) &&
    match t with
    | DBuiltin _ => true
    | DObject d => forallb name_ok (ob_ifaces d) && no_dirs (ob_dirs d) && fdefs_b (ob_fields d)
    | DEnum d => no_dirs (en_dirs d) && forallb (fun v => name_ok (ev_name v) && negb (reserved (ev_name v)) && no_dirs (ev_dirs v)) (en_values d) && match en_values d with [] => false | _ => true end
    | _ => false
    end.
  Definition ddef_b (d : ddef) : bool := name_ok (dd_name d) && forallb ivd_b (dd_args d) && match dd_locs d with [] => false | _ => true end.
  Lemma no_dirs_ok ds : no_dirs ds = true -> nice_dirs ds.
  Proof. destruct ds; [constructor|discriminate]. Qed.
  Lemma forallb_Forall {A} (p : A -> bool) (Q : A -> Prop) l : (forall a, p a = true -> Q a) -> forallb p l = true -> Forall Q l.
  Proof. intros H K. rewrite forallb_forall in K. apply Forall_forall. auto. Qed.
  Lemma ivd_b_ok i : ivd_b i = true -> nice_ivd i.
  Proof.
    unfold ivd_b, nice_ivd. rewrite !andb_true_iff. intros ((N & F) & D). split; [now apply name_ok_ok|]. split; [|now apply no_dirs_ok].
    intros v E. rewrite E in F. destruct v; try discriminate; constructor.
  Qed.
  Lemma fdef_b_ok f : fdef_b f = true -> nice_fdef f.
  Proof. unfold fdef_b, nice_fdef. rewrite !andb_true_iff. intros ((N & A) & D). split; [now apply name_ok_ok|]. split; [exact (forallb_Forall _ _ _ ivd_b_ok A)|now apply no_dirs_ok]. Qed.
  Lemma tdef_b_ok t : match t with DObject d => In typename_field (ob_fields d) | _ => True end -> tdef_b t = true -> nice_tdef t.
  Proof.
    unfold tdef_b, nice_tdef. intros Ty. rewrite andb_true_iff. intros (N & H). split; [now apply name_ok_ok|]. destruct t; try discriminate; auto; rewrite !andb_true_iff in H.
    - destruct H as ((I & D) & F). split; [exact (forallb_Forall _ _ _ name_ok_ok I)|]. split; [now apply no_dirs_ok|]. unfold fdefs_b in F. apply andb_true_iff in F as (G & F).
      split; [exact Ty|]. split; [|exact (forallb_Forall _ _ _ fdef_b_ok F)]. destruct (ob_fields d) as [|f [|g l]]; try discriminate. exists g. split; [right; now left|].
      intros K. apply (in_map fd_name), tmem_In in K. rewrite K in G. discriminate.
    - destruct H as ((D & V) & NE). split; [now apply no_dirs_ok|]. split; [|now destruct (en_values d)]. eapply forallb_Forall; [|exact V]. intros v. rewrite !andb_true_iff. intros ((A & R) & B).
      split; [now apply name_ok_ok|]. split; [|now apply no_dirs_ok]. apply reserved_words. now destruct (reserved (ev_name v)).
  Qed.
  Lemma nice_introspection : Forall nice_tdef introspection_types.
  Proof.
    assert (B : forallb tdef_b introspection_types = true) by (vm_compute; reflexivity). rewrite forallb_forall in B. apply Forall_forall. intros t I. apply tdef_b_ok; [|now apply B].
    clear B. repeat (destruct I as [<-|I]; [try exact Logic.I; left; reflexivity|]). destruct I.
  Qed.
  Lemma nice_scalar b : nice_tdef (DBuiltin b).
  Proof. apply tdef_b_ok; [exact I|]. destruct b; reflexivity. Qed.
  Lemma nice_builtin_directives : Forall nice_ddef all_builtin_directives.
  Proof.
    apply (forallb_Forall ddef_b); [|vm_compute; reflexivity]. intros d. unfold ddef_b, nice_ddef. rewrite andb_true_iff. rewrite andb_true_iff. intros ((N & A) & L). split; [now apply name_ok_ok|]. split; [exact (forallb_Forall _ _ _ ivd_b_ok A)|now destruct (dd_locs d)].
  Qed.
  Lemma nice_rooted q t : nice_tdef t -> nice_tdef (rooted q t).
  Proof.
    unfold rooted, with_root_fields. destruct t; auto. destruct (_ || _); auto. unfold nice_tdef. cbn [td_name ob_name ob_ifaces ob_dirs ob_fields]. intros (N & I & D & Ty & (f & If & Nf) & F).
    split; [exact N|]. split; [exact I|]. split; [exact D|]. split; [apply in_or_app; now left|]. split; [exists f; split; [apply in_or_app; now left|exact Nf]|].
    apply Forall_app. split; [exact F|]. apply (forallb_Forall fdef_b); [apply fdef_b_ok|]. vm_compute. reflexivity.
  Qed.

  (** the schema of a text *)
  Record nice_schema (s : schema) : Prop := {
    ns_types : Forall nice_tdef (s_types s);
    ns_ddefs : Forall nice_ddef (s_ddefs s);
    ns_dirs : nice_dirs (s_dirs s) }.
  Lemma read_nice so dor recover other_digit parse_f64 t s :
    incl dor all_builtin_directives -> reads_numbers parse_f64 -> read_schema_with so dor recover other_digit parse_f64 t = inl (inl s) -> nice_schema s.
  Proof.
    intros DO HP. unfold read_schema_with, parse_schema_text. destruct (parse_sysdoc so dor _) as [d|] eqn:E; [|discriminate].
    destruct (resolve d) as [s0|] eqn:R; [|discriminate]. intros [= ->]. apply parse_sysdoc_ok in E as (xs & _ & F & Hi & ->).
    apply (c05_layout_only recover other_digit) in Hi; [|intros l b Hl; apply (HP l b Hl)]. apply source_nice in Hi; [|exact HP]. apply nice_concat in Hi.
    assert (W : forall x, In x (map snd xs) -> sysdef_ok x /\ exists lead, nice (tk_sysdef lead x)).
    { intros x I. rewrite Forall_forall in F, Hi. split; [now apply F|]. apply in_map_iff in I as ((lead & y) & <- & I). exists lead. exact (Hi _ I). }
    set (ys := map snd xs) in *. clearbody ys. clear Hi F xs.
    pose proof (proj1 (resolve_schema _ _) R) as So.
    assert (T : Forall nice_tdef (df_types (completed so dor ys))).
    { rewrite (types_of so dor ys s R). apply Forall_forall. intros u I. apply in_map_iff in I as (v & <- & I). apply nice_rooted. rewrite !in_app_iff in I. destruct I as [I|[I|I]].
      - pose proof nice_introspection as K. rewrite Forall_forall in K. auto.
      - unfold sys_types in I. apply in_flat_map in I as (x & I & J). destruct x; cbn in J; try destruct J as [->|[]]; try destruct J. apply W in I as (O & lead & K). now apply (nice_tk_tdef lead).
      - apply in_map_iff in I as (b & <- & _). apply nice_scalar. }
    split.
    - rewrite Forall_forall in *. intros u I. apply T. eapply Permutation_in; [apply Permutation_sym, (so_types _ _ So)|exact I].
    - apply Forall_forall. intros u I. apply (Permutation_in _ (Permutation_sym (so_ddefs _ _ So))) in I. unfold completed, add_root_fields, insert_directives, insert_scalars, extend in I.
      cbn [df_ddefs new_document] in I. rewrite ?in_app_iff in I. destruct I as [I|I].
      + destruct I as [[]|I]. unfold sys_ddefs in I. apply in_flat_map in I as (x & I & J). destruct x; cbn in J; try destruct J as [->|[]]; try destruct J. apply W in I as (O & lead & K). now apply (nice_tk_ddef lead).
      + apply filter_In in I as (I & _). pose proof nice_builtin_directives as K. rewrite Forall_forall in K. auto.
    - destruct (so_roots _ _ So) as [(e & E & _ & -> & _)|(_ & _ & -> & _)]; [|constructor].
      unfold completed, add_root_fields, insert_directives, insert_scalars, extend in E. cbn [df_schemas new_document app] in E.
      assert (I : In e (sys_schemas ys)) by (rewrite E; now left). unfold sys_schemas in I. apply in_flat_map in I as (x & I & J). destruct x; cbn in J; try destruct J as [->|[]]; try destruct J.
      apply W in I as (O & lead & K). now apply nice_tk_esdef.
  Qed.
  Lemma nice_fields_list s l : nice_schema s -> fields_in s l -> nice_fdefs l.
  Proof. intros [T _ _] H. rewrite Forall_forall in T. destruct H as [d H|d H]; now apply T in H as (_ & _ & _ & H). Qed.
  Lemma nice_fields_in s l f : nice_schema s -> fields_in s l -> In f l -> nice_fdef f.
  Proof. intros S H I. apply nice_fields_list in H as (_ & _ & H); auto. rewrite Forall_forall in H. auto. Qed.
  Lemma nice_inputs_in s l i : nice_schema s -> inputs_in s l -> In i l -> nice_ivd i.
  Proof.
    intros S H I. destruct H as [l f H J|d H|d H].
    - apply (nice_fields_in s l f S H) in J as (_ & J & _). rewrite Forall_forall in J. auto.
    - destruct S as [T _ _]. rewrite Forall_forall in T. apply T in H as (_ & _ & H & _). rewrite Forall_forall in H. auto.
    - destruct S as [_ D _]. rewrite Forall_forall in D. apply D in H as (_ & H & _). rewrite Forall_forall in H. auto.
  Qed.
  Lemma nice_directives_in s l : nice_schema s -> directives_in s l -> nice_dirs l.
  Proof.
    intros S H. destruct H as [|d H|d H|d H|d H|d H|d v H J|d H|l f H J|l i H J].
    9: now apply (nice_fields_in s l f S H) in J as (_ & _ & J).
    9: now apply (nice_inputs_in s l i S H) in J as (_ & _ & J).
    all: destruct S as [T _ D]; auto; rewrite Forall_forall in T; apply T in H as (_ & H); cbv iota beta in H; try tauto.
    destruct H as (_ & H & _). rewrite Forall_forall in H. now apply H.
  Qed.
  Lemma nice_values s v : nice_schema s -> value_in s v -> constant v.
  Proof.
    intros S H. destruct H as [l i v H I E|l d a v H I J].
    - apply (nice_inputs_in s l i S H) in I as (_ & I & _). auto.
    - apply (nice_directives_in s l S) in H. unfold nice_dirs in H. rewrite Forall_forall in H. apply H in I as (_ & I). rewrite Forall_forall in I. now apply I in J as (_ & J).
  Qed.
  Lemma nice_names s : nice_schema s -> graphql_names s.
  Proof.
    intros S. pose proof (ns_types _ S) as T. pose proof (ns_ddefs _ S) as D. rewrite Forall_forall in T, D. split.
    - intros t H. now apply T.
    - intros d H. now apply D.
    - intros l f H I. now apply (nice_fields_in s l f S H) in I as (I & _).
    - intros l f H I. now apply (nice_inputs_in s l f S H) in I as (I & _).
    - intros d v H I. apply T in H as (_ & _ & H & _). rewrite Forall_forall in H. now apply H.
    - intros d v H I. apply T in H as (_ & H & _). rewrite Forall_forall in H. now apply H.
    - intros d v H I. apply T in H as (_ & _ & H & _). rewrite Forall_forall in H. now apply H.
  Qed.
End Tokens.
Lemma sorted_once l : StronglySorted tlt l -> NoDup l.
Proof.
  induction 1 as [|a l H IH F]; constructor; auto. intros I. rewrite Forall_forall in F. apply F in I. now apply tlt_irrefl in I.
Qed.
Lemma read_schema_of so dor recover other_digit parse_f64 t s : read_schema_with so dor recover other_digit parse_f64 t = inl (inl s) -> exists d, schema_of d s.
Proof.
  unfold read_schema_with. destruct (parse_schema_text _ _ _ _ _ _) as [d|]; [|discriminate]. destruct (resolve d) as [s0|] eqn:R; [|discriminate].
  intros [= ->]. exists d. now apply resolve_schema.
Qed.
Lemma read_well_made so dor recover other_digit parse_f64 t s : incl dor all_builtin_directives -> reads_numbers parse_f64 ->
  read_schema_with so dor recover other_digit parse_f64 t = inl (inl s) -> well_made s.
Proof.
  intros DO HP H. pose proof (read_nice _ _ _ _ _ _ _ DO HP H) as S. apply read_schema_of in H as (d & So).
  pose proof (ns_types _ S) as T. pose proof (ns_ddefs _ S) as D. rewrite Forall_forall in T, D. split.
  - now apply nice_names.
  - intros i n H I. apply T in H as (_ & H & _). rewrite Forall_forall in H. auto.
  - intros l x H I. apply (nice_directives_in _ _ S) in H. unfold nice_dirs in H. rewrite Forall_forall in H. apply H in I as (N & I). split; [exact N|].
    intros a v J. rewrite Forall_forall in I. now apply I in J as (J & _).
  - exact (sorted_once _ (so_types_sorted _ _ So)).
  - exact (sorted_once _ (so_ddefs_sorted _ _ So)).
  - intros v H. now apply (nice_values s).
  - intros l H. now apply nice_fields_list in H as (_ & H & _).
  - intros x H. now apply T in H as (_ & _ & _ & H & _).
  - intros x H. now apply T in H as (_ & _ & _ & H).
  - intros x H. now apply T in H as (_ & _ & _ & H).
  - intros x H. now apply D in H as (_ & _ & H).
  - intros x v H I. apply T in H as (_ & _ & H & _). rewrite Forall_forall in H. now apply H in I as (_ & I & _).
  - intros l H. now apply nice_fields_list in H as (H & _ & _).
  - intros x H. now apply T in H as (_ & _ & _ & _ & H).
Qed.
Lemma constant_floats (P : N -> Prop) v : (forall b, f64 b -> f64_number b <> NaN -> P b) -> constant v -> every_float P v.
Proof.
  intros HP. induction v as [x|z|f|s|b| |e|vs IH|es IH] using value_ind'; intros H; inversion H as [ | | | | | |l F|o F]; subst; constructor; auto.
  - rewrite Forall_forall in *. auto.
  - rewrite Forall_forall in *. intros p I. apply IH; auto. now apply F in I.
Qed.
Lemma well_made_floats s : well_made s -> floats s.
Proof. intros W v H. apply (wm_values _ W) in H. now apply (constant_floats f64). Qed.
Lemma well_made_no_nan s : well_made s -> without_nan s.
Proof. intros W v H. apply (wm_values _ W) in H. now apply (constant_floats (fun b => f64_number b <> NaN)). Qed.
Lemma well_made_once s : well_made s -> members_once s -> names_once s.
Proof. intros W []. split; auto; apply W. Qed.
