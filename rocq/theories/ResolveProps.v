(** Properties C12, C13, C14: from definition documents to schemas. *)
From Coq Require Import String Sorted Permutation.
From Verif Require Import Base Ast Maps Lexer Parser ParserProps DefParser DefParserSpec DefParserProofs DefParserProps Resolve ResolveSpec ResolveProofs.
From Coq Require Import Lia.
Local Open Scope string_scope.
Local Open Scope list_scope.

(** ** C14: which schema, if any, and what the errors say *)
(** A document gives the schema [s] exactly when [s] is the schema it defines: no name is defined twice, the references are
    right, the roots are the ones declared by the only schema definition, or without one the conventionally named types, and
    they are object types. *)
Theorem c14_schemas : forall d s, resolve d = inl s <-> schema_of d s.
Proof. exact resolve_schema. Qed.
(** there is at most one such schema *)
Theorem c14_unique : forall d s s', schema_of d s -> schema_of d s' -> s = s'.
Proof. intros d s s' H H'. apply resolve_schema in H. apply resolve_schema in H'. congruence. Qed.
(** otherwise there are errors, and each is true of the document *)
Theorem c14_errors : forall d es, resolve d = inr es -> es <> [] /\ Forall (derror_true d) es.
Proof. exact resolve_errors. Qed.

Lemma reported d e : In e (reference_errors d) -> exists es, resolve d = inr es /\ In e es.
Proof. intros H. rewrite resolve_eq. destruct (reference_errors d) as [|x l]; [destruct H|]. eauto. Qed.
(** names defined more than once are reported, with all their definitions *)
Theorem c14_duplicate_types : forall d n, 2 <= length (named n (df_types d)) ->
  exists es, resolve d = inr es /\ In (DuplicateTypes n (named n (df_types d))) es.
Proof.
  intros d n H. apply reported. unfold reference_errors. apply in_or_app. left. apply in_map_iff. exists (n, named n (df_types d)). split; [reflexivity|]. apply dups_In. auto.
Qed.
Theorem c14_duplicate_directives : forall d n, 2 <= length (directives_named n (df_ddefs d)) ->
  exists es, resolve d = inr es /\ In (DuplicateDirectives n (directives_named n (df_ddefs d))) es.
Proof.
  intros d n H. apply reported. unfold reference_errors. apply in_or_app. right. apply in_or_app. left. apply in_map_iff. exists (n, directives_named n (df_ddefs d)). split; [reflexivity|]. apply dups_In. auto.
Qed.
(** two schema definitions are never accepted *)
Theorem c14_schema_definitions : forall d s, resolve d = inl s -> length (df_schemas d) <= 1.
Proof. intros d s H. apply resolve_schema in H. destruct (so_roots _ _ H) as [(e & -> & _)|(-> & _)]; cbn; lia. Qed.
(** the roots *)
Theorem c14_roots : forall d s, resolve d = inl s ->
  roots_are_objects (s_types s) s /\
  (forall e, df_schemas d = [e] -> forall ty n, In (ty, n) (es_roots e) <-> match ty with OQuery => Some (s_query s) | OMutation => s_mutation s | OSubscription => s_subscription s end = Some n) /\
  (df_schemas d = [] -> s_query s = tx "Query" /\
     (forall n, s_mutation s = Some n <-> n = tx "Mutation" /\ In n (map td_name (s_types s))) /\
     (forall n, s_subscription s = Some n <-> n = tx "Subscription" /\ In n (map td_name (s_types s)))).
Proof.
  intros d s H. apply resolve_schema in H. destruct H as [HT HTs HD HDs HR HRo HO].
  assert (ON : forall n, object_named (df_types d) n -> object_named (s_types s) n).
  { intros n (o & I & E). exists o. split; [now apply (Permutation_in _ HT) | exact E]. }
  split; [|split].
  - destruct HO as (Q & M & S). repeat split; auto.
  - intros e Ee ty n. destruct HRo as [(e' & E & _ & _ & Q & M & S)|(E & _)]; [|congruence]. assert (e' = e) by congruence. subst e'.
    assert (K : forall r, declares e ty r -> In (ty, n) (es_roots e) <-> r = Some n).
    { intros r R. unfold declares, declarations in R. transitivity (In (ty, n) (filter (fun p => optype_eqb (fst p) ty) (es_roots e))).
      - rewrite filter_In. cbn [fst]. split; [|tauto]. intros I. split; [exact I|]. now destruct ty.
      - rewrite R. destruct r as [m|]; cbn; split; try tauto; try discriminate; intros; [destruct H as [[= ->]|[]]; reflexivity | left; congruence]. }
    destruct ty; auto.
  - intros E. destruct HRo as [(e' & E' & _)|(_ & _ & _ & Q & M & S)]; [congruence|]. split; [exact Q|].
    assert (K : forall m r, conventional (df_types d) m r -> (forall n, r = Some n -> object_named (df_types d) n) -> forall n, r = Some n <-> n = m /\ In n (map td_name (s_types s))).
    { intros m r C O n. destruct r as [k|]; cbn in C.
      - subst k. split; [|intros (-> & _); reflexivity]. intros [= ->]. split; [reflexivity|]. destruct (ON _ (O _ eq_refl)) as (o & I & <-). exact (in_map td_name _ _ I).
      - split; [discriminate|]. intros (-> & I). apply in_map_iff in I. destruct I as (t & En & I). apply (Permutation_in _ (Permutation_sym HT)) in I. now apply C in I. }
    destruct HO as (_ & M' & S'). split; [now apply K | now apply K].
Qed.

(** ** C13: references *)
Lemma references_perm T T' D D' : Permutation T T' -> Permutation D D' -> references_ok T D -> references_ok T' D'.
Proof.
  intros P Q [F V I M X].
  assert (P' : forall t, In t T' -> In t T) by (intros t; apply Permutation_in; now symmetry). assert (P'' : forall t, In t T -> In t T') by (intros t; now apply Permutation_in).
  assert (Q' : forall t, In t D' -> In t D) by (intros t; apply Permutation_in; now symmetry). assert (Q'' : forall t, In t D -> In t D') by (intros t; now apply Permutation_in).
  assert (V' : forall v, value_defined T' D' v -> value_defined T D v).
  { intros v [i v' H K|t f v' H K L|x v' H K]; [eapply vd_input_field | eapply vd_argument | eapply vd_directive_argument]; eauto. }
  split.
  - intros t f H K. destruct (F t f (P' t H) K) as (u & A & B). eauto.
  - intros v H. destruct (V v (V' v H)) as (u & A & B). eauto.
  - intros t n H K. destruct (I t n (P' t H) K) as (u & A & B). eauto.
  - intros u n H K. destruct (M u n (P' _ H) K) as (o & A & B). eauto.
  - intros x H. destruct (X x) as (dd & A & B); [|eauto]. destruct H as [t x H K|t f x H K L|v x H K|e v x H K L]; [eapply du_type | eapply du_field | eapply du_value | eapply du_enum_value]; eauto.
Qed.
(** in the schema, every name used as a type is that of a type of a kind allowed there, and every directive used on a type,
    field, argument, input field or enum value is defined *)
Theorem c13_references : forall d s, resolve d = inl s -> references_ok (s_types s) (s_ddefs s).
Proof. intros d s H. apply resolve_schema in H. destruct H as [HT HTs HD HDs HR HRo HO]. exact (references_perm _ _ _ _ HT HD HR). Qed.
Lemma get_type_sorted s t : StronglySorted tlt (map td_name (s_types s)) -> In t (s_types s) -> get_type s (td_name t) = Some t.
Proof.
  intros S I. apply sorted_NoDup in S. destruct (get_type s (td_name t)) as [u|] eqn:E.
  - apply get_type_Some in E. destruct E as (J & E). f_equal. now apply (NoDup_key_inj td_name (s_types s)).
  - rewrite get_type_None in E. now apply E in I.
Qed.
(** the lookups by name, which panic when they find nothing, do find something *)
Theorem c13_lookups : forall d s, resolve d = inl s ->
  (forall t f, In t (s_types s) -> In f (td_fields t) -> output_lookup s (fd_type f) <> None) /\
  (forall v, value_defined (s_types s) (s_ddefs s) v -> input_lookup s (iv_type v) <> None) /\
  (forall t n, In t (s_types s) -> implements t n -> interface_lookup s n <> None) /\
  (forall u n, In (DUnion u) (s_types s) -> In n (un_members u) -> member_lookup s n <> None) /\
  (forall x, directive_used (s_types s) (s_ddefs s) x -> directive_lookup s x <> None) /\
  (forall n, s_query s = n \/ s_mutation s = Some n \/ s_subscription s = Some n -> member_lookup s n <> None).
Proof.
  intros d s H. pose proof (c13_references _ _ H) as R. destruct (c14_roots _ _ H) as (RO & _). apply resolve_schema in H. pose proof (so_types_sorted _ _ H) as S. clear H.
  assert (O : forall n, object_named (s_types s) n -> member_lookup s n <> None).
  { intros n (o & I & <-). unfold member_lookup. pose proof (get_type_sorted s _ S I) as G. cbn [td_name] in G. rewrite G. discriminate. }
  repeat split.
  - intros t f It If. destruct (ro_fields _ _ R t f It If) as (u & I & E & K). unfold output_lookup. rewrite <- E, (get_type_sorted s u S I), K. discriminate.
  - intros v Hv. destruct (ro_values _ _ R v Hv) as (u & I & E & K). unfold input_lookup. rewrite <- E, (get_type_sorted s u S I), K. discriminate.
  - intros t n It Im. destruct (ro_interfaces _ _ R t n It Im) as (i & I & <-). unfold interface_lookup. pose proof (get_type_sorted s _ S I) as G. cbn [td_name] in G. rewrite G. discriminate.
  - intros u n Iu In'. apply O. exact (ro_members _ _ R u n Iu In').
  - intros x Hx. destruct (ro_directives _ _ R x Hx) as (dd & I & E). unfold directive_lookup, get_ddef. intros N. apply (find_none _ _ N) in I. cbn in I. rewrite E, teqb_refl in I. discriminate.
  - destruct RO as (Q & M & Su). intros n [<-|[E|E]]; apply O; auto.
Qed.

(** *** Every wrong reference is reported (when no name is defined twice: otherwise the first definition of a name stands for all) *)
Definition about_reference (e : derror) : Prop :=
  match e with TypeMissing _ | NotOutput _ | NotInput _ | MemberNotObject _ | NotInterface _ | DirectiveMissing _ => True | _ => False end.
Section Reported.
  Variable d : defdoc.
  Notation T := (df_types d).
  Notation D := (df_ddefs d).
  Hypothesis ND : NoDup (map td_name T).
  Hypothesis NDD : NoDup (map dd_name D).
  Notation types := (fst (index td_name T)).
  Notation ddefs := (fst (index dd_name D)).
  Notation all := (resolve_all types ddefs).
  Lemma tdef_incl t e : In t T -> In e (resolve_tdef types ddefs t) -> In e all.
  Proof. intros I H. apply in_or_app. left. apply in_flat_map. exists t. split; [now apply values_types | exact H]. Qed.
  Lemma fdef_incl t f e : In t T -> In f (td_fields t) -> In e (resolve_fdef types ddefs f) -> In e all.
  Proof.
    intros I If H. apply (tdef_incl t); [exact I|].
    assert (G : In e (flat_map (resolve_fdef types ddefs) (td_fields t))) by (apply in_flat_map; eauto).
    destruct t; cbn [td_fields] in *; try destruct If; cbn [resolve_tdef]; apply in_or_app; now left.
  Qed.
  Lemma ivd_incl v e : value_defined T D v -> In e (resolve_ivd types ddefs v) -> In e all.
  Proof.
    intros [i v' I Iv|t f v' I If Iv|x v' I Iv] H.
    - apply (tdef_incl (DInput i)); [exact I|]. cbn [resolve_tdef]. apply in_or_app. left. apply in_flat_map. eauto.
    - apply (fdef_incl t f); auto. unfold resolve_fdef. apply in_or_app. right. apply in_or_app. left. apply in_flat_map. eauto.
    - apply in_or_app. right. apply in_flat_map. exists x. split; [now apply values_ddefs|]. apply in_flat_map. eauto.
  Qed.
  Lemma interface_incl t n e : In t T -> implements t n -> In e (resolve_interfaces types [n]) -> In e all.
  Proof.
    intros I Im H. cbn in H. rewrite app_nil_r in H. apply (tdef_incl t); [exact I|].
    destruct t; cbn [implements] in Im; try destruct Im; cbn [resolve_tdef]; apply in_or_app; right; apply in_or_app; left; apply in_flat_map; eauto.
  Qed.
  Lemma directive_incl x e : directive_used T D x -> In e (resolve_directives ddefs [x]) -> In e all.
  Proof.
    intros U H. assert (G : forall ds, In x ds -> In e (resolve_directives ddefs ds)).
    { intros ds I. unfold resolve_directives in *. cbn in H. rewrite app_nil_r in H. apply in_flat_map. eauto. }
    destruct U as [t x I Ix|t f x I If Ix|v x Iv Ix|en v x I Iv Ix].
    - apply (tdef_incl t); [exact I|]. apply G in Ix. destruct t; cbn [own_directives] in Ix; cbn [resolve_tdef]; rewrite ?in_app_iff; auto.
    - apply (fdef_incl t f); auto. unfold resolve_fdef. rewrite !in_app_iff. auto.
    - apply (ivd_incl v); auto. unfold resolve_ivd. rewrite !in_app_iff. auto.
    - apply (tdef_incl (DEnum en)); [exact I|]. cbn [resolve_tdef]. rewrite in_app_iff. right. apply in_flat_map. eauto.
  Qed.
  Lemma member_incl u n e : In (DUnion u) T -> In n (un_members u) ->
    In e (match assoc n types with Some (DObject _) => [] | Some _ => [MemberNotObject n] | None => [TypeMissing n] end) -> In e all.
  Proof.
    intros I Im H. apply (tdef_incl (DUnion u)); [exact I|]. cbn [resolve_tdef]. apply in_or_app. right. apply in_or_app. left. apply in_flat_map. eauto.
  Qed.
  Lemma all_reported e : about_reference e -> derror_true d e -> In e all.
  Proof.
    destruct e; cbn [about_reference derror_true]; try tauto; intros _.
    - intros (R & U). assert (A : assoc n types = None) by now apply index_None. destruct R as [t f I If|v Iv|t n I Im|u n I Im].
      + apply (fdef_incl t f); auto. unfold resolve_fdef. rewrite A. now left.
      + apply (ivd_incl v); auto. unfold resolve_ivd. rewrite A. now left.
      + apply (interface_incl t n); auto. cbn. rewrite A. now left.
      + apply (member_incl u n); auto. rewrite A. now left.
    - intros (t & f & u & I & If & <- & J & E & K). apply (fdef_incl t f); auto. unfold resolve_fdef. rewrite (proj2 (assoc_types d ND _ u)) by auto. rewrite K. now left.
    - intros (v & u & Iv & <- & J & E & K). apply (ivd_incl v); auto. unfold resolve_ivd. rewrite (proj2 (assoc_types d ND _ u)) by auto. rewrite K. now left.
    - intros (u & t & I & Im & J & E & K). apply (member_incl u n); auto. rewrite (proj2 (assoc_types d ND _ t)) by auto. destruct t; try (now left). now destruct (K d0).
    - intros (u & t & I & Im & J & E & K). apply (interface_incl u n); auto. cbn. rewrite (proj2 (assoc_types d ND _ t)) by auto. destruct t; try (now left). now destruct (K d0).
    - intros (U & K). apply (directive_incl d0); auto. cbn. rewrite (proj2 (index_None dd_name _ _)) by auto. now left.
  Qed.
End Reported.
Theorem c13_wrong_references_reported : forall d e, NoDup (map td_name (df_types d)) -> NoDup (map dd_name (df_ddefs d)) -> about_reference e -> derror_true d e ->
  exists es, resolve d = inr es /\ In e es.
Proof.
  intros d e ND NDD A H. apply reported. unfold reference_errors. apply in_or_app. right. apply in_or_app. right. now apply all_reported.
Qed.

(** ** C12: the order of the hash maps does not show *)
Lemma perm_with_key {A} (key : A -> name) k (l l' : list A) : NoDup (map key l) -> Permutation l l' -> with_key key k l = with_key key k l'.
Proof.
  intros ND P. assert (P' : Permutation (with_key key k l) (with_key key k l')) by now apply perm_filter.
  assert (L : length (with_key key k l) <= 1).
  { clear P P'. induction l as [|a l IH]; cbn; [lia|]. cbn in ND. inversion_clear ND as [|? ? NI ND']. destruct (teqb (key a) k) eqn:Q; [|auto].
    apply teqb_eq in Q. cbn. replace (filter (fun x => teqb (key x) k) l) with (@nil A); [cbn; lia|]. symmetry. apply filter_nil. intros x I. apply teqb_neq. intros E. apply NI. rewrite Q, <- E. now apply in_map. }
  destruct (with_key key k l) as [|a [|b r]]; [now apply Permutation_nil in P' | now apply Permutation_length_1_inv in P' | cbn in L; lia].
Qed.
Lemma NoDup_map_filter {A B} (f : A -> B) p l : NoDup (map f l) -> NoDup (map f (filter p l)).
Proof.
  induction l as [|a l IH]; cbn; auto. intros N. inversion_clear N as [|? ? NI N']. destruct (p a); cbn; auto. constructor; auto.
  intros H. apply NI. apply in_map_iff in H. destruct H as (b & E & H). apply filter_In in H. apply in_map_iff. exists b. tauto.
Qed.
Lemma with_key_map {A} (key : A -> name) (f : A -> A) k l : (forall a, key (f a) = key a) -> with_key key k (map f l) = map f (with_key key k l).
Proof. intros E. unfold with_key. induction l as [|a l IH]; cbn [map filter]; [reflexivity|]. rewrite E. destruct (teqb (key a) k); cbn [map]; now rewrite <- IH. Qed.
Lemma with_root_fields_name l t : td_name (with_root_fields l t) = td_name t.
Proof. destruct t; cbn [with_root_fields]; auto. now destruct (_ || _). Qed.
Lemma resolve_completed so so' dor dor' xs : Permutation so all_builtins -> Permutation so' all_builtins ->
  Permutation dor all_builtin_directives -> Permutation dor' all_builtin_directives ->
  resolve (completed so dor xs) = resolve (completed so' dor' xs).
Proof.
  intros P P' Q Q'.
  assert (E1 : index td_name (df_types (completed so dor xs)) = index td_name (df_types (completed so' dor' xs))).
  { apply index_ext. intros k. unfold completed, add_root_fields, insert_directives, insert_scalars. cbn [df_types query_roots df_schemas].
    rewrite !with_key_map by apply with_root_fields_name. f_equal. rewrite !with_key_app. f_equal. apply perm_with_key.
    - rewrite map_map. cbn [td_name]. apply NoDup_map_filter. apply (Permutation_NoDup (l := map builtin_name all_builtins)); [apply Permutation_map; now symmetry|].
      apply duplicates_nil. vm_compute. reflexivity.
    - apply Permutation_map, perm_filter. now rewrite P, P'. }
  assert (E2 : index dd_name (df_ddefs (completed so dor xs)) = index dd_name (df_ddefs (completed so' dor' xs))).
  { apply index_ext. intros k. unfold completed, add_root_fields, insert_directives, insert_scalars. cbn [df_ddefs].
    rewrite !with_key_app. f_equal. apply perm_with_key.
    - apply NoDup_map_filter. apply (Permutation_NoDup (l := map dd_name all_builtin_directives)); [apply Permutation_map; now symmetry|].
      apply duplicates_nil. vm_compute. reflexivity.
    - apply perm_filter. now rewrite Q, Q'. }
  unfold resolve. now rewrite E1, E2.
Qed.
(** the outcome of reading a text as a schema, including the errors, is the same for every order in which the hash maps of
    built-in definitions may be iterated *)
Definition read_schema_with so dor recover other_digit parse_f64 (s : text) : schema + list error + list derror :=
  match parse_schema_text so dor recover other_digit parse_f64 s with
  | inl d => match resolve d with inl sc => inl (inl sc) | inr es => inr es end
  | inr es => inl (inr es)
  end.
Theorem c12_order_independent : forall so so' dor dor' recover other_digit parse_f64 s,
  Permutation so all_builtins -> Permutation so' all_builtins -> Permutation dor all_builtin_directives -> Permutation dor' all_builtin_directives ->
  read_schema_with so dor recover other_digit parse_f64 s = read_schema_with so' dor' recover other_digit parse_f64 s.
Proof.
  intros so so' dor dor' recover other_digit parse_f64 s P P' Q Q'. unfold read_schema_with, parse_schema_text. generalize (map fst (lex recover other_digit parse_f64 false s)) as items. intros items.
  destruct (parse_sysdoc so dor items) as [d|es] eqn:E.
  - apply parse_sysdoc_ok in E. destruct E as (xs & NE & F & -> & ->).
    replace (parse_sysdoc so' dor' (map inl (concat (map (fun p : bool * sysdef => tk_sysdef (fst p) (snd p)) xs)))) with (inl (completed so' dor' (map snd xs)) : defdoc + list error)
      by (symmetry; apply parse_sysdoc_ok; eauto).
    now rewrite (resolve_completed so so' dor dor' (map snd xs)).
  - unfold parse_sysdoc in *. destruct (sysdoc_loop _ _ _ _ _) as [d errs]. destruct (match item_errors items with [] => _ | _ => _ end); [discriminate|]. now injection E as ->.
Qed.

(** ** Examples *)
Definition run (s : string) : schema + list error + list derror := read_schema_with all_builtins all_builtin_directives (fun _ => 1) (fun _ => false) no_floats (tx s).
Definition summary (x : schema + list error + list derror) := match x with inl (inl s) => Some (s_query s, s_mutation s, s_subscription s, length (s_types s), length (s_ddefs s)) | _ => None end.
Definition problems (x : schema + list error + list derror) : list derror := match x with inr es => es | _ => [] end.
Example c14_case_implicit : summary (run "interface N { id: ID! } type Query implements N { id: ID! f(a: I, e: E): U @d } input I { x: Int = 1 @d } enum E { A B @d }
    union U = Query | Mutation type Mutation { a: S } scalar S directive @d(a: [I]) on FIELD_DEFINITION") = Some (tx "Query", Some (tx "Mutation"), None, 20, 6).
Proof. vm_compute. reflexivity. Qed.
Example c14_case_explicit : summary (run "schema { mutation: M query: A } type A { x: Int } type M { y: A } type Mutation { z: M }") = Some (tx "A", Some (tx "M"), None, 16, 5).
Proof. vm_compute. reflexivity. Qed.
Example c14_case_errors :
  problems (run "type A { x: Int }") = [NoSchema] /\
  problems (run "type Mutation { x: Int }") = [ImplicitMissingQuery] /\
  problems (run "schema { query: B } type A { x: Int }") = [ExplicitRootMissing (OQuery, tx "B")] /\
  problems (run "schema { query: S } scalar S") = [ExplicitRootNotObject (tx "S")] /\
  problems (run "schema { query: A query: A } type A { x: Int }") = [DuplicateRoots OQuery [(OQuery, tx "A"); (OQuery, tx "A")]] /\
  length (problems (run "schema { query: A } schema { query: A } type A { x: Int }")) = 1 /\
  length (problems (run "type Query { x: Int } type Query { x: Int } directive @a on FIELD directive @a on FIELD")) = 2.
Proof. repeat split; vm_compute; reflexivity. Qed.
Example c13_case_errors :
  problems (run "type Query implements B & S { x: A y(a: Query): I @n } input I { x: Query } union U = I | Z scalar S directive @d(a: Query) on FIELD") =
  [NotInput (tx "Query"); TypeMissing (tx "A"); NotOutput (tx "I"); NotInput (tx "Query"); DirectiveMissing {| dir_name := tx "n"; dir_args := [] |};
   TypeMissing (tx "B"); NotInterface (tx "S"); MemberNotObject (tx "I"); TypeMissing (tx "Z"); NotInput (tx "Query")].
Proof. vm_compute. reflexivity. Qed.

(** The claim of C13 about directives does not extend to the schema definition itself: a directive used there is neither
    looked up nor reported, and asking for its definition panics (definition_document.rs:489-593 never visits the schema
    definition's directives; directive.rs:30-37 unwraps). *)
Theorem c13_schema_directives_refuted : exists text s x, run text = inl (inl s) /\ In x (s_dirs s) /\ directive_lookup s x = None.
Proof.
  exists "schema @nowhere { query: A } type A { x: Int }". destruct (run "schema @nowhere { query: A } type A { x: Int }") as [[s|es]|es] eqn:E; [|vm_compute in E; discriminate|vm_compute in E; discriminate].
  exists s, {| dir_name := tx "nowhere"; dir_args := [] |}. split; [reflexivity|]. vm_compute in E. injection E as <-. split; [now left | vm_compute; reflexivity].
Qed.

Print Assumptions c12_order_independent. Print Assumptions c13_references. Print Assumptions c13_lookups. Print Assumptions c13_wrong_references_reported.
Print Assumptions c13_schema_directives_refuted. Print Assumptions c14_schemas. Print Assumptions c14_unique. Print Assumptions c14_errors.
Print Assumptions c14_duplicate_types. Print Assumptions c14_duplicate_directives. Print Assumptions c14_schema_definitions. Print Assumptions c14_roots.
