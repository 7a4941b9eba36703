(** Properties C10, C11, C12: definition documents. *)
From Coq Require Import String Permutation.
From Verif Require Import Base Ast Lexer Parser ParserSpec ParserProofs ParserDocProofs ParserProps DefParser DefParserSpec DefParserProofs.
From Coq Require Import Lia.
Local Open Scope string_scope.
Local Open Scope list_scope.

(** ** C12: what the document holds *)
(** the definitions [xs] of the text, and what is added to them *)
Definition unused (names : list name) (n : name) : bool := negb (existsb (teqb n) names).
Definition query_root_name (xs : list sysdef) (n : name) : Prop := n = tx "Query" \/ exists e, In e (sys_schemas xs) /\ In (OQuery, n) (es_roots e).
Inductive with_introspection (xs : list sysdef) : tdef -> tdef -> Prop :=
| wi_root n desc is_ ds fs b : query_root_name xs n ->
    with_introspection xs
      (DObject {| ob_name := n; ob_desc := desc; ob_ifaces := is_; ob_dirs := ds; ob_fields := fs; ob_builtin := b |})
      (DObject {| ob_name := n; ob_desc := desc; ob_ifaces := is_; ob_dirs := ds; ob_fields := fs ++ [schema_field; type_field]; ob_builtin := b |})
| wi_other t : (forall o, t = DObject o -> ~ query_root_name xs (ob_name o)) -> with_introspection xs t t.
(** the document read from [xs]: the built-in scalars and directives that [xs] does not define come last, in any order *)
Record document_of_definitions (xs : list sysdef) (d : defdoc) (scalars : list builtin) (directives : list ddef) : Prop := {
  do_schemas : df_schemas d = sys_schemas xs;
  do_directives : df_ddefs d = sys_ddefs xs ++ directives;
  do_directives_added : Permutation directives (filter (fun b => unused (map dd_name (sys_ddefs xs)) (dd_name b)) all_builtin_directives);
  do_types : Forall2 (with_introspection xs) (introspection_types ++ sys_types xs ++ map DBuiltin scalars) (df_types d);
  do_scalars_added : Permutation scalars (filter (fun b => unused (map td_name (sys_types xs)) (builtin_name b)) all_builtins) }.

Lemma perm_filter {A} (f : A -> bool) l l' : Permutation l l' -> Permutation (filter f l) (filter f l').
Proof.
  induction 1 as [|x l l' P IH|x y l|l l' l'' P1 IH1 P2 IH2]; cbn; auto.
  - destruct (f x); auto.
  - destruct (f x), (f y); auto using Permutation_refl. apply perm_swap.
  - etransitivity; eauto.
Qed.
Lemma query_roots_In xs d n : df_schemas d = sys_schemas xs -> In n (query_roots d) <-> exists e, In e (sys_schemas xs) /\ In (OQuery, n) (es_roots e).
Proof.
  intros E. unfold query_roots. rewrite E, in_flat_map. split.
  - intros (e & I & H). exists e. split; [exact I|]. apply in_flat_map in H. destruct H as ((ty & m) & J & H). destruct ty; cbn in H; try destruct H as [->|[]]; try destruct H. exact J.
  - intros (e & I & H). exists e. split; [exact I|]. apply in_flat_map. exists (OQuery, n). split; [exact H | now left].
Qed.
Lemma with_root_fields_ok xs d t : df_schemas d = sys_schemas xs -> with_introspection xs t (with_root_fields (query_roots d) t).
Proof.
  intros E. destruct t as [b|s|o|i|en|u|i]; try (apply wi_other; intros ? ?; discriminate). cbn [with_root_fields].
  destruct (teqb (ob_name o) (tx "Query") || tmem (ob_name o) (query_roots d)) eqn:Q.
  - destruct o as [n desc is_ ds fs b]. apply wi_root. cbn in Q. apply Bool.orb_true_iff in Q. destruct Q as [Q|Q]; [left; now apply teqb_eq | right]. apply tmem_In in Q. exact (proj1 (query_roots_In xs d _ E) Q).
  - apply wi_other. intros o' [= <-] [H|H].
    + rewrite H in Q. discriminate.
    + apply (proj2 (query_roots_In xs d _ E)), tmem_In in H. rewrite H, Bool.orb_true_r in Q. discriminate.
Qed.
Lemma Forall2_map_r {A B} (R : A -> B -> Prop) f l : (forall a, R a (f a)) -> Forall2 R l (map f l).
Proof. intros H. induction l; cbn; auto. Qed.
(** the builtin names are not those of the introspection types *)
Lemma unused_types b l : negb (tmem (builtin_name b) (map td_name (introspection_types ++ l))) = unused (map td_name l) (builtin_name b).
Proof.
  unfold unused, tmem. rewrite map_app, existsb_app. destruct b; reflexivity.
Qed.

Section Orders.
  Variable scalar_order : list builtin.
  Variable directive_order : list ddef.
  Definition completed (xs : list sysdef) : defdoc := add_root_fields (insert_directives directive_order (insert_scalars scalar_order (extend new_document xs))).
  Lemma definition_count_0 xs : Forall sysdef_ok xs -> Nat.eqb (definition_count (extend new_document xs)) 0 = match xs with [] => true | _ => false end.
  Proof.
    intros F. unfold definition_count, extend, new_document. cbn [df_ddefs df_schemas df_types app]. rewrite filter_app, app_length. cbn [filter].
    replace (length (filter _ introspection_types)) with 0 by reflexivity. cbn [plus].
    destruct F as [|x xs O F]; [reflexivity|]. apply Nat.eqb_neq. destruct x as [e|dd|t].
    - cbn. lia.
    - cbn [sys_ddefs flat_map app filter]. destruct O as (_ & _ & ->). cbn. lia.
    - cbn [sys_types flat_map app filter]. replace (td_builtin t) with false; [cbn; lia|]. destruct t; cbn in *; try tauto; symmetry; tauto.
  Qed.
  Lemma parse_sysdoc_ok items d : parse_sysdoc scalar_order directive_order items = inl d <->
    exists xs, xs <> [] /\ Forall sysdef_ok (map snd xs) /\ items = map inl (concat (map (fun p => tk_sysdef (fst p) (snd p)) xs)) /\ d = completed (map snd xs).
  Proof.
    split.
    - unfold parse_sysdoc. destruct (sysdoc_loop _ _ _ _ _) as [d' errs] eqn:E. destruct (item_errors items) as [|e es] eqn:EE; [|discriminate].
      destruct errs as [|e errs]; [|discriminate]. apply sysdoc_loop_sound in E; [|reflexivity]. destruct E as (xs & Ht & F & ->).
      rewrite definition_count_0 by exact F. destruct xs as [|x xs]; [discriminate|]. intros [= <-].
      exists (x :: xs). repeat split; auto; [congruence|]. rewrite <- Ht. now apply item_errors_nil.
    - intros (xs & NE & F & -> & ->). unfold parse_sysdoc. rewrite item_tokens_map, item_errors_map, sysdoc_loop_complete; [|exact F|pose proof (written_length xs F); lia].
      rewrite definition_count_0 by exact F. destruct xs; [congruence|]. reflexivity.
  Qed.
  Hypothesis scalars : Permutation scalar_order all_builtins.
  Hypothesis directives : Permutation directive_order all_builtin_directives.
  Lemma completed_ok xs : exists sc di, document_of_definitions xs (completed xs) sc di.
  Proof.
    exists (filter (fun b => unused (map td_name (sys_types xs)) (builtin_name b)) scalar_order), (filter (fun b => unused (map dd_name (sys_ddefs xs)) (dd_name b)) directive_order).
    split.
    - reflexivity.
    - reflexivity.
    - now apply perm_filter.
    - unfold completed, add_root_fields. cbn [df_types].
      replace (df_types (insert_directives directive_order (insert_scalars scalar_order (extend new_document xs)))) with
        (introspection_types ++ sys_types xs ++ map DBuiltin (filter (fun b => unused (map td_name (sys_types xs)) (builtin_name b)) scalar_order)).
      + apply Forall2_map_r. intros t. apply with_root_fields_ok. reflexivity.
      + unfold insert_directives, insert_scalars, extend. cbn [df_types new_document]. rewrite <- app_assoc. f_equal. f_equal. f_equal. apply filter_ext. intros b. symmetry. apply unused_types.
    - now apply perm_filter.
  Qed.

  (** *** C10 *)
  (** Parsing gives a document exactly when there are no lexing errors and the tokens are one or more definitions, one
      after the other and nothing else; the document then holds those definitions in order, next to the built-in ones. *)
  Theorem c10_schema_documents : forall items,
    (exists d, parse_sysdoc scalar_order directive_order items = inl d) <->
    (exists xs, xs <> [] /\ Forall sysdef_ok (map snd xs) /\ items = map inl (concat (map (fun p => tk_sysdef (fst p) (snd p)) xs))).
  Proof.
    intros items. split.
    - intros (d & H). apply parse_sysdoc_ok in H. destruct H as (xs & NE & F & E & _). eauto.
    - intros (xs & NE & F & E). exists (completed (map snd xs)). apply parse_sysdoc_ok. eauto.
  Qed.
  (** the tokens determine the definitions *)
  Theorem c10_schema_unambiguous : forall xs ys, Forall sysdef_ok (map snd xs) -> Forall sysdef_ok (map snd ys) ->
    concat (map (fun p => tk_sysdef (fst p) (snd p)) xs) = concat (map (fun p => tk_sysdef (fst p) (snd p)) ys) -> map snd xs = map snd ys.
  Proof.
    induction xs as [|[l x] xs IH]; intros [|[l' y] ys] F F' E; [reflexivity | | |]; cbn [map snd fst concat] in *.
    - destruct (tk_sysdef_head l' y (Forall_inv F')) as (d & n & r & H). rewrite H in E. destruct d; discriminate.
    - destruct (tk_sysdef_head l x (Forall_inv F)) as (d & n & r & H). rewrite H in E. destruct d; discriminate.
    - pose proof (try_sysdef_complete l x _ (Forall_inv F) (written_ends _ (Forall_inv_tail F))) as K.
      pose proof (try_sysdef_complete l' y _ (Forall_inv F') (written_ends _ (Forall_inv_tail F'))) as K'.
      rewrite E in K. rewrite K' in K. injection K as -> K. f_equal. apply IH; auto; [exact (Forall_inv_tail F) | exact (Forall_inv_tail F')].
  Qed.

  (** *** C11 *)
  Theorem c11_schema_document_or_errors : forall items,
    (exists d, parse_sysdoc scalar_order directive_order items = inl d) \/
    (exists e es, parse_sysdoc scalar_order directive_order items = inr (e :: es) /\ Forall genuine (e :: es)).
  Proof.
    intros items. unfold parse_sysdoc. destruct (sysdoc_loop _ _ _ _ _) as [d errs] eqn:E.
    apply sysdoc_loop_real in E; [|lia|constructor].
    assert (G : Forall genuine (map EParse errs)).
    { apply Forall_map. eapply Forall_impl; [|exact E]. intros e (H1 & H2 & H3). now split. }
    set (fin := add_root_fields _).
    assert (F : forall l, Forall genuine l -> (exists d', match l with [] => inl fin | _ :: _ => inr l end = inl d') \/
      (exists e es, match l with [] => inl fin | _ :: _ => inr l end = (inr (e :: es) : defdoc + list error) /\ Forall genuine (e :: es))).
    { intros [|e l] H; [left; eauto | right; eauto]. }
    destruct (item_errors items) as [|e es].
    - apply F. destruct errs; [|exact G]. destruct (Nat.eqb _ _); auto. constructor; [split; discriminate | constructor].
    - apply F. apply Forall_forall. intros x I. apply in_map_iff in I. destruct I as (y & <- & _). exact I.
  Qed.
  Theorem c11_schema_lexing_errors : forall items, item_errors items <> [] -> parse_sysdoc scalar_order directive_order items = inr (map ELex (item_errors items)).
  Proof.
    intros items H. unfold parse_sysdoc. destruct (sysdoc_loop _ _ _ _ _) as [d errs]. destruct (item_errors items); [congruence|]. reflexivity.
  Qed.
  Theorem c11_schema_empty : forall items, parse_sysdoc scalar_order directive_order items = inr [EParse PEEmpty] <-> items = [].
  Proof.
    intros items. split; [|intros ->; reflexivity]. unfold parse_sysdoc. destruct (sysdoc_loop _ _ _ _ _) as [d errs] eqn:E.
    destruct (item_errors items) as [|e es] eqn:EE; [|discriminate].
    destruct errs as [|e errs].
    - apply sysdoc_loop_sound in E; [|reflexivity]. destruct E as (xs & Ht & F & ->). rewrite definition_count_0 by exact F. destruct xs; [|discriminate].
      intros _. rewrite (item_errors_nil _ EE). now rewrite Ht.
    - apply sysdoc_loop_real in E; [|lia|constructor]. apply Forall_inv in E. destruct E as (_ & _ & N). cbn [map]. intros [= H _]. congruence.
  Qed.

  (** *** C12 *)
  Theorem c12_documents : forall xs d, Forall sysdef_ok (map snd xs) ->
    parse_sysdoc scalar_order directive_order (map inl (concat (map (fun p => tk_sysdef (fst p) (snd p)) xs))) = inl d ->
    exists scalars directives, document_of_definitions (map snd xs) d scalars directives.
  Proof.
    intros xs d F H. apply parse_sysdoc_ok in H. destruct H as (ys & _ & F' & E & ->).
    assert (E' : concat (map (fun p => tk_sysdef (fst p) (snd p)) xs) = concat (map (fun p => tk_sysdef (fst p) (snd p)) ys)).
    { apply (f_equal (@item_tokens)) in E. now rewrite !item_tokens_map in E. }
    rewrite (c10_schema_unambiguous xs ys F F' E'). apply completed_ok.
  Qed.
End Orders.

(** Each built-in scalar: the user's definitions if there are any, else the built-in one, once. *)
Definition named (n : name) (l : list tdef) : list tdef := filter (fun t => teqb (td_name t) n) l.
Definition directives_named (n : name) (l : list ddef) : list ddef := filter (fun t => teqb (dd_name t) n) l.
Lemma wi_name xs t u : with_introspection xs t u -> td_name u = td_name t.
Proof. now intros []. Qed.
Lemma Forall2_named xs n l l' : Forall2 (with_introspection xs) l l' -> Forall2 (with_introspection xs) (named n l) (named n l').
Proof.
  induction 1 as [|t u l l' H F IH]; cbn; [constructor|]. rewrite (wi_name _ _ _ H). destruct (teqb (td_name t) n); [constructor; assumption | exact IH].
Qed.
Lemma named_builtins n l : named n (map DBuiltin l) = map DBuiltin (filter (fun b => teqb (builtin_name b) n) l).
Proof. unfold named. induction l as [|b l IH]; [reflexivity|]. cbn [map filter td_name]. destruct (teqb (builtin_name b) n); cbn [map]; now rewrite IH. Qed.
Lemma filter_filter {A} (f g : A -> bool) l : filter f (filter g l) = filter g (filter f l).
Proof. induction l as [|a l IH]; [reflexivity|]. cbn. destruct (g a) eqn:G, (f a) eqn:F; cbn; rewrite ?F, ?G, IH; reflexivity. Qed.
Lemma filter_builtin b : filter (fun b' => teqb (builtin_name b') (builtin_name b)) all_builtins = [b].
Proof. destruct b; reflexivity. Qed.
Lemma unused_In l n : unused l n = true <-> ~ In n l.
Proof. unfold unused. rewrite Bool.negb_true_iff. apply tmem_false. Qed.
Lemma named_introspection b : named (builtin_name b) introspection_types = [].
Proof. destruct b; reflexivity. Qed.
Lemma named_nil n l : named n l = [] <-> ~ In n (map td_name l).
Proof.
  unfold named. rewrite filter_nil, in_map_iff. split.
  - intros H (t & E & I). apply H in I. rewrite E, teqb_refl in I. discriminate.
  - intros H t I. apply teqb_neq. intros E. eauto.
Qed.
Theorem c12_builtin_scalars : forall xs d scalars directives b, document_of_definitions xs d scalars directives ->
  (named (builtin_name b) (sys_types xs) = [] -> named (builtin_name b) (df_types d) = [DBuiltin b]) /\
  (named (builtin_name b) (sys_types xs) <> [] -> Forall2 (with_introspection xs) (named (builtin_name b) (sys_types xs)) (named (builtin_name b) (df_types d))).
Proof.
  intros xs d scalars directives b H. pose proof (Forall2_named _ (builtin_name b) _ _ (do_types _ _ _ _ H)) as F.
  unfold named in F at 1. rewrite !filter_app in F. fold (named (builtin_name b) introspection_types) (named (builtin_name b) (sys_types xs)) (named (builtin_name b) (map DBuiltin scalars)) in F.
  rewrite named_introspection, named_builtins in F. cbn [app] in F.
  pose proof (perm_filter (fun b' => teqb (builtin_name b') (builtin_name b)) _ _ (do_scalars_added _ _ _ _ H)) as P.
  rewrite filter_filter, filter_builtin in P. cbn [filter] in P.
  destruct (unused (map td_name (sys_types xs)) (builtin_name b)) eqn:U.
  - apply Permutation_sym, Permutation_length_1_inv in P. rewrite P in F. apply unused_In in U. apply named_nil in U. rewrite U in *. split; [|congruence]. intros _.
    cbn [app map] in F. inversion F as [|? u ? l W F']; subst. inversion F'; subst. inversion W; subst. reflexivity.
  - apply Permutation_sym, Permutation_nil in P. rewrite P in F. rewrite app_nil_r in F. split; [|auto]. intros E. exfalso. apply named_nil in E. apply unused_In in E. congruence.
Qed.
Lemma dnamed_nil n l : directives_named n l = [] <-> ~ In n (map dd_name l).
Proof.
  unfold directives_named. rewrite filter_nil, in_map_iff. split.
  - intros H (t & E & I). apply H in I. rewrite E, teqb_refl in I. discriminate.
  - intros H t I. apply teqb_neq. intros E. eauto.
Qed.
Theorem c12_builtin_directives : forall xs d scalars directives b, document_of_definitions xs d scalars directives -> In b all_builtin_directives ->
  (directives_named (dd_name b) (sys_ddefs xs) = [] -> directives_named (dd_name b) (df_ddefs d) = [b]) /\
  (directives_named (dd_name b) (sys_ddefs xs) <> [] -> directives_named (dd_name b) (df_ddefs d) = directives_named (dd_name b) (sys_ddefs xs)).
Proof.
  intros xs d scalars directives b H I. rewrite (do_directives _ _ _ _ H). unfold directives_named at 2 4. rewrite !filter_app. fold (directives_named (dd_name b) (sys_ddefs xs)).
  pose proof (perm_filter (fun b' => teqb (dd_name b') (dd_name b)) _ _ (do_directives_added _ _ _ _ H)) as P. rewrite filter_filter in P.
  assert (Q : filter (fun b' => teqb (dd_name b') (dd_name b)) all_builtin_directives = [b]) by (repeat (destruct I as [<-|I]; [reflexivity|]); destruct I).
  rewrite Q in P. cbn [filter] in P.
  destruct (unused (map dd_name (sys_ddefs xs)) (dd_name b)) eqn:U.
  - apply Permutation_sym, Permutation_length_1_inv in P. rewrite P. apply unused_In in U. apply dnamed_nil in U. rewrite U in *. split; [auto | congruence].
  - apply Permutation_sym, Permutation_nil in P. rewrite P, app_nil_r. split; [|auto]. intros E. exfalso. apply dnamed_nil in E. apply unused_In in E. congruence.
Qed.
(** the eight introspection types are there, and are first of their name *)
Theorem c12_introspection_types : forall xs d scalars directives t, document_of_definitions xs d scalars directives -> In t introspection_types ->
  exists t', with_introspection xs t t' /\ find (fun u => teqb (td_name u) (td_name t)) (df_types d) = Some t'.
Proof.
  intros xs d scalars directives t H I. pose proof (do_types _ _ _ _ H) as F. apply Forall2_app_inv_l in F. destruct F as (l1 & l2 & F & _ & ->).
  assert (Q : find (fun u => teqb (td_name u) (td_name t)) introspection_types = Some t) by (repeat (destruct I as [<-|I]; [reflexivity|]); destruct I).
  revert Q. generalize introspection_types l1 F. clear. induction 1 as [|a b l l' W F IH]; cbn; [discriminate|]. rewrite (wi_name _ _ _ W).
  destruct (teqb (td_name a) (td_name t)); [|exact IH]. intros [= <-]. eauto.
Qed.
(** the user's definitions are all there, in order, and nothing but the built-in ones was added *)
Theorem c12_user_definitions : forall xs d scalars directives, document_of_definitions xs d scalars directives ->
  df_schemas d = sys_schemas xs /\ (exists added, df_ddefs d = sys_ddefs xs ++ added /\ incl added all_builtin_directives) /\
  (exists before mine after, df_types d = before ++ mine ++ after /\ Forall2 (with_introspection xs) introspection_types before /\
     Forall2 (with_introspection xs) (sys_types xs) mine /\ exists scalars, after = map DBuiltin scalars).
Proof.
  intros xs d scalars directives H. repeat split.
  - apply H.
  - exists directives. split; [apply H|]. intros x I. eapply Permutation_in in I; [|apply (do_directives_added _ _ _ _ H)]. now apply filter_In in I.
  - pose proof (do_types _ _ _ _ H) as F. apply Forall2_app_inv_l in F. destruct F as (l1 & l2 & F1 & F & ->). apply Forall2_app_inv_l in F. destruct F as (l3 & l4 & F2 & F3 & ->).
    exists l1, l3, l4. repeat split; auto. exists scalars. clear - F3. revert l4 F3. induction scalars as [|b l IH]; cbn; intros l4 F; inversion F as [|? u ? r W F']; subst; [reflexivity|]. f_equal; [now inversion W | now apply IH].
Qed.

Notation read_schema := (parse_schema_text all_builtins all_builtin_directives (fun _ => 1) (fun _ => false) no_floats).
Example c12_case : exists d,
  read_schema (tx "scalar Int schema @a { query: Q } directive @skip on FIELD type Q implements & A & B { ""d"" f(a: [Int!]! = [1] @b): Int @c } union U = | Q enum E { X Y @d }
     input I { a: Int = 1 } interface A { x: Int } directive @x(y: I) repeatable on FIELD | QUERY") = inl d /\
  length (df_schemas d) = 1 /\ map dd_name (df_ddefs d) = map tx ["skip"; "x"; "deprecated"; "include"; "oneOf"; "specifiedBy"] /\
  map td_name (skipn 8 (df_types d)) = map tx ["Int"; "Q"; "U"; "E"; "I"; "A"; "Float"; "String"; "Boolean"; "ID"] /\
  flat_map (fun t => if teqb (td_name t) (tx "Q") then map fd_name (td_fields t) else []) (df_types d) = map tx ["__typename"; "f"; "__schema"; "__type"].
Proof. eexists. split; [vm_compute; reflexivity|]. repeat split; vm_compute; reflexivity. Qed.
Example c10_schema_case :
  read_schema (tx "type T { a: Int } }") = inr [EParse (PEToken (TkPunct PCloseBrace))] /\
  read_schema (tx "enum E { A null }") = inr [EParse (PEEnum (tx "null"))] /\
  read_schema (tx "directive @d on FIELD | FOO") = inr [EParse (PEOneOf (TkName (tx "FOO")) (map dloc_text all_dlocs))] /\
  read_schema (tx "type T {}") = inr [EParse (PEName (TkPunct PCloseBrace))] /\
  read_schema (tx "") = inr [EParse PEEmpty] /\
  (exists e, read_schema (tx "type T { a: Int } ?") = inr [ELex e]).
Proof. repeat split; try (vm_compute; reflexivity). eexists. vm_compute. reflexivity. Qed.

(** *** The constants in the code denote the definitions of DefParser.v *)
Definition tokens_in (s : text) : list token := item_tokens (map fst (lex (fun _ => 1) (fun _ => false) no_floats false s)).
Definition mark_object (t : tdef) : tdef :=
  match t with
  | DObject o => DObject {| ob_name := ob_name o; ob_desc := ob_desc o; ob_ifaces := ob_ifaces o; ob_dirs := ob_dirs o; ob_fields := ob_fields o; ob_builtin := true |}
  | DEnum e => DEnum {| en_name := en_name e; en_desc := en_desc e; en_dirs := en_dirs e; en_values := en_values e; en_builtin := true |}
  | _ => t
  end.
Definition mark_directive (d : ddef) : ddef :=
  {| dd_name := dd_name d; dd_desc := dd_desc d; dd_args := dd_args d; dd_repeatable := dd_repeatable d; dd_locs := dd_locs d; dd_builtin := true |}.
Definition mark_field (f : fdef) : fdef :=
  {| fd_name := fd_name f; fd_desc := fd_desc f; fd_args := fd_args f; fd_type := fd_type f; fd_dirs := fd_dirs f; fd_builtin := true |}.
Definition ok_or {A} (x : presult A) : option A := match x with POk a [] => Some a | _ => None end.
(** object_type_definition.rs:42-95, enum_type_definition.rs:38-66 *)
Theorem c12_introspection_sources :
  map (fun s => option_map mark_object (ok_or (parse_object (tokens_in (tx s))))) [
"type __Schema {
        description: String
        types: [__Type!]!
        queryType: __Type!
        mutationType: __Type
        subscriptionType: __Type
        directives: [__Directive!]!
    }"; "type __Type {
        kind: __TypeKind!
        name: String
        description: String
        # must be non-null for OBJECT and INTERFACE, otherwise null.
        fields(includeDeprecated: Boolean = false): [__Field!]
        # must be non-null for OBJECT and INTERFACE, otherwise null.
        interfaces: [__Type!]
        # must be non-null for INTERFACE and UNION, otherwise null.
        possibleTypes: [__Type!]
        # must be non-null for ENUM, otherwise null.
        enumValues(includeDeprecated: Boolean = false): [__EnumValue!]
        # must be non-null for INPUT_OBJECT, otherwise null.
        inputFields(includeDeprecated: Boolean = false): [__InputValue!]
        # must be non-null for NON_NULL and LIST, otherwise null.
        ofType: __Type
        # may be non-null for custom SCALAR, otherwise null.
        specifiedByURL: String
    }"; "type __Field {
        name: String!
        description: String
        args(includeDeprecated: Boolean = false): [__InputValue!]!
        type: __Type!
        isDeprecated: Boolean!
        deprecationReason: String
    }"; "type __InputValue {
        name: String!
        description: String
        type: __Type!
        defaultValue: String
    }"; "type __EnumValue {
        name: String!
        description: String
        isDeprecated: Boolean!
        deprecationReason: String
    }"; "type __Directive {
        name: String!
        description: String
        locations: [__DirectiveLocation!]!
        args(includeDeprecated: Boolean = false): [__InputValue!]!
        isRepeatable: Boolean!
    }"] ++
  map (fun s => option_map mark_object (ok_or (parse_enum (tokens_in (tx s))))) [
"enum __TypeKind {
        SCALAR
        OBJECT
        INTERFACE
        UNION
        ENUM
        INPUT_OBJECT
        LIST
        NON_NULL
    }"; "enum __DirectiveLocation {
        QUERY
        MUTATION
        SUBSCRIPTION
        FIELD
        FRAGMENT_DEFINITION
        FRAGMENT_SPREAD
        INLINE_FRAGMENT
        VARIABLE_DEFINITION
        SCHEMA
        SCALAR
        OBJECT
        FIELD_DEFINITION
        ARGUMENT_DEFINITION
        INTERFACE
        UNION
        ENUM
        ENUM_VALUE
        INPUT_OBJECT
        INPUT_FIELD_DEFINITION
    }"] = map Some introspection_types.
Proof. vm_compute. reflexivity. Qed.
(** directive_definition.rs:25-31, field_definition.rs:17-19 *)
Theorem c12_directive_sources :
  map (fun s => option_map mark_directive (ok_or (parse_ddef (tokens_in (tx s))))) [
    "directive @deprecated(reason: String = ""No longer supported"") on FIELD_DEFINITION | ARGUMENT_DEFINITION | INPUT_FIELD_DEFINITION | ENUM_VALUE";
    "directive @include(if: Boolean!) on FIELD | FRAGMENT_SPREAD | INLINE_FRAGMENT";
    "directive @oneOf on INPUT_OBJECT";
    "directive @skip(if: Boolean!) on FIELD | FRAGMENT_SPREAD | INLINE_FRAGMENT";
    "directive @specifiedBy(url: String!) on SCALAR"] = map Some all_builtin_directives.
Proof. vm_compute. reflexivity. Qed.
Theorem c12_field_sources :
  map (fun s => option_map mark_field (ok_or (parse_fdef (tokens_in (tx s))))) ["__typename: String!"; "__schema: __Schema!"; "__type(name: String!): __Type"] =
  map Some [typename_field; schema_field; type_field].
Proof. vm_compute. reflexivity. Qed.

Print Assumptions c10_schema_documents. Print Assumptions c10_schema_unambiguous. Print Assumptions c11_schema_document_or_errors.
Print Assumptions c11_schema_lexing_errors. Print Assumptions c11_schema_empty. Print Assumptions c12_documents. Print Assumptions c12_builtin_scalars.
Print Assumptions c12_builtin_directives. Print Assumptions c12_introspection_types. Print Assumptions c12_user_definitions.
