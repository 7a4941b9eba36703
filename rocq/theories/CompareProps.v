(** Properties C44, C45, C46, C47: comparing two schemas. *)
From Coq Require Import String Permutation Sorted.
From Verif Require Import Base Ast Maps CoercionTypes Coercion CoercionSpec CoercionProps Doc DocRules ValueEq ValueEqSpec ValueEqProofs ValueEqProps Compare CompareSpec CompareProofs ResolveProps.
From Coq Require Import Lia.
Local Open Scope string_scope.
Local Open Scope list_scope.

(** ** C44 *)
(** A schema in which no member name is given twice, no directive is applied twice to the same thing and no default value or
    directive argument contains a NaN has no changes against itself. *)
Theorem c44_self : forall s, names_once s -> floats s -> without_nan s -> compare s s = [].
Proof.
  intros s U F N. destruct (compare s s) as [|c l] eqn:E; [reflexivity|]. exfalso.
  assert (H : In c (compare s s)) by (rewrite E; now left). apply compare_In in H. apply schema_sound in H as [H|H]; auto.
  - revert H. now apply nothing_real.
  - revert H. now apply nothing_misplaced.
Qed.

(** ** C45 *)
(** Every change of the pair is reported, except for the kinds of changes listed in [overlooked]. *)
Theorem c45_reported_partial : forall old new c, floats old -> floats new -> names_once new ->
  real old new c -> overlooked old new c \/ In c (compare old new).
Proof. intros old new c Fo Fn U H. rewrite compare_In. now apply schema_complete. Qed.
(** In particular, whatever is added, removed, or changes kind or type. *)
Theorem c45_existence_and_types : forall old new c, floats old -> floats new -> names_once new -> real old new c ->
  match c with
  | TypeRemoved _ | TypeAdded _ | TypeKindChanged _ _ | FieldAdded _ _ | FieldRemoved _ _ | FieldTypeChanged _ _ _
  | FieldArgumentAdded _ _ _ | FieldArgumentRemoved _ _ _ | FieldArgumentTypeChanged _ _ _ _ | FieldArgumentDefaultValueChanged _ _ _ _
  | ObjectInterfaceAddition _ _ | ObjectInterfaceRemoval _ _ | EnumValueAdded _ _ | EnumValueRemoved _ _
  | UnionMemberAdded _ _ | UnionMemberRemoved _ _ | InputFieldAdded _ _ | InputFieldRemoved _ _ | InputFieldTypeChanged _ _ _
  | InputFieldDefaultValueChanged _ _ _ | DirectiveDefinitionAdded _ | DirectiveDefinitionRemoved _
  | DirectiveDefinitionLocationAdded _ _ | DirectiveDefinitionLocationRemoved _ _
  | DirectiveDefinitionArgumentTypeChanged _ _ _ | DirectiveDefinitionArgumentDefaultValueChanged _ _ _ => In c (compare old new)
  | _ => True
  end.
Proof.
  intros old new c Fo Fn U H. destruct (c45_reported_partial old new c Fo Fn U H) as [O|I].
  - inversion O; exact I.
  - destruct c; auto.
Qed.
(** Every reported change is real, except that a directive put on or taken from an input object type is reported once more for
    each of its fields. *)
Theorem c45_real_partial : forall old new c, floats old -> floats new -> In c (compare old new) -> real old new c \/ misplaced old new c.
Proof. intros old new c Fo Fn H. apply compare_In in H. now apply schema_sound. Qed.
Theorem c45_misplaced : forall old new c, names_once new -> misplaced old new c -> In c (compare old new).
Proof. intros old new c U H. apply compare_In. now apply misplaced_reported. Qed.

(** ** C46 *)
(** a type change of a field is called safe exactly when every result for the new type is one for the old type *)
Theorem c46_field_type : forall n f g, non_breaking (FieldTypeChanged n f g) = true <->
  forall (A : Type) (is_a : A -> name -> Prop) r, result_of is_a (fd_type g) r -> result_of is_a (fd_type f) r.
Proof.
  intros n f g. assert (E : non_breaking (FieldTypeChanged n f g) = change_safe_for_field (fd_type f) (fd_type g)).
  { unfold non_breaking, criticality_of. now destruct (change_safe_for_field _ _). }
  rewrite E. split.
  - intros H A is_a. now apply result_change.
  - intros H. destruct (change_safe_for_field (fd_type f) (fd_type g)) eqn:Q; [reflexivity|].
    apply result_change_needed in Q as (r & R & NR). exfalso. apply NR. now apply H.
Qed.
(** if the type change of an argument, an input field or a directive's argument is called safe, every value accepted for the old
    type is accepted for the new type *)
Definition input_type_change (c : change) (a b : ivd) : Prop :=
  (exists n f, c = FieldArgumentTypeChanged n f a b) \/ (exists d, c = InputFieldTypeChanged d a b) \/
  (exists d, c = DirectiveDefinitionArgumentTypeChanged d a b).
Theorem c46_input_type : forall c a b, input_type_change c a b -> non_breaking c = true ->
  forall hook str_enum one_of s v p,
    coerce_value hook str_enum one_of s (iv_type a) v p = [] -> coerce_value hook str_enum one_of s (iv_type b) v p = [].
Proof.
  intros c a b T H hook str_enum one_of s v p. rewrite !coerce_accepts_exactly_conforming.
  assert (E : change_safe_for_input (iv_type a) (iv_type b) = true).
  { destruct (change_safe_for_input (iv_type a) (iv_type b)) eqn:Q; [reflexivity|].
    destruct T as [(n & f & ->)|[(d & ->)|(d & ->)]]; unfold non_breaking, criticality_of in H; rewrite Q in H; discriminate. }
  now apply conforms_change.
Qed.
(** a new input field is called safe exactly when it is not required; then every value accepted before is accepted after *)
Theorem c46_input_field_added : forall d f, non_breaking (InputFieldAdded d f) = negb (iv_required f).
Proof. intros d f. unfold non_breaking, criticality_of, iv_required. destruct (iv_default f), (tref_required (iv_type f)); reflexivity. Qed.
Theorem c46_input_field_added_accepts : forall d f n s, non_breaking (InputFieldAdded d f) = true ->
  (forall e, In (DInput e) (s_types s) -> io_name e = n -> ~ In (iv_name f) (map iv_name (io_fields e))) ->
  forall hook str_enum one_of t v p,
    coerce_value hook str_enum one_of s t v p = [] -> coerce_value hook str_enum one_of (with_input_field n f s) t v p = [].
Proof.
  intros d f n s H FR hook str_enum one_of t v p. rewrite c46_input_field_added, negb_true_iff in H.
  rewrite !coerce_accepts_exactly_conforming. now apply conforms_with_field.
Qed.
(** a new argument of a field or of a directive definition is called safe exactly when it never makes arguments that were complete
    incomplete *)
Definition argument_added (c : change) (a : ivd) : Prop :=
  (exists n f, c = FieldArgumentAdded n f a) \/ (exists d, c = DirectiveDefinitionArgumentAdded d a).
Theorem c46_argument_added : forall c a, argument_added c a ->
  non_breaking c = true <->
  forall o args defs, missing_args o args defs = [] -> missing_args o args (defs ++ [a]) = [].
Proof.
  intros c a T. assert (E : non_breaking c = negb (iv_required a)).
  { destruct T as [(n & f & ->)|(d & ->)]; unfold non_breaking, criticality_of, iv_required; destruct (iv_default a), (tref_required (iv_type a)); reflexivity. }
  rewrite E, negb_true_iff. unfold missing_args, iv_required. split.
  - intros R o args defs H. rewrite filter_app. destruct (filter _ defs) eqn:Q; [|discriminate]. cbn.
    destruct (iv_default a); [now rewrite andb_false_r|]. now rewrite R.
  - intros H. specialize (H (OwnDirective {| dd_name := []; dd_desc := None; dd_args := []; dd_repeatable := false; dd_locs := []; dd_builtin := false |}) [] [] eq_refl).
    cbn in H. destruct (iv_default a); [reflexivity|]. destruct (tref_required (iv_type a)); [discriminate|reflexivity].
Qed.
(** removing anything clients can name is never called safe *)
Theorem c46_removals_break : forall c,
  match c with
  | TypeRemoved _ | TypeKindChanged _ _ | FieldRemoved _ _ | FieldArgumentRemoved _ _ _ | ObjectInterfaceRemoval _ _ | EnumValueRemoved _ _
  | UnionMemberRemoved _ _ | InputFieldRemoved _ _ | DirectiveDefinitionRemoved _ | DirectiveDefinitionLocationRemoved _ _
  | DirectiveDefinitionArgumentRemoved _ _ | DirectiveRemoved _ _ _ => breaking c = true
  | _ => True
  end.
Proof. intros c. destruct c; try exact I; try reflexivity. unfold breaking, criticality_of. now destruct (existsb _ _). Qed.

(** what lets results appear that clients did not meet before, or changes what a missing value means, is called dangerous *)
Theorem c46_surprises_dangerous : forall c,
  match c with
  | ObjectInterfaceAddition _ _ | EnumValueAdded _ _ | UnionMemberAdded _ _ | FieldArgumentDefaultValueChanged _ _ _ _
  | InputFieldDefaultValueChanged _ _ _ | DirectiveDefinitionArgumentDefaultValueChanged _ _ _ => dangerous c = true
  | _ => dangerous c = false
  end.
Proof.
  intros c. destruct c; try reflexivity; unfold dangerous, criticality_of; repeat match goal with |- context [if ?b then _ else _] => destruct b end; reflexivity.
Qed.

(** ** C47 *)
(** the result holds the detected changes, each as often as detected *)
Theorem c47_permutation_partial : forall old new, Permutation (compare old new) (schema_diff old new).
Proof. intros old new. apply sort_perm. Qed.
(** each change is in exactly one of the three views *)
Theorem c47_partition : forall c,
  (breaking c = true /\ dangerous c = false /\ non_breaking c = false) \/
  (breaking c = false /\ dangerous c = true /\ non_breaking c = false) \/
  (breaking c = false /\ dangerous c = false /\ non_breaking c = true).
Proof. intros c. unfold breaking, dangerous, non_breaking. destruct (criticality_of c); auto. Qed.
(** but the order is the reverse of the one claimed: safe changes come first, then dangerous, then breaking ones; among these
    the greater reason first; changes with the same criticality and reason stay in the order in which they are found *)
Theorem c47_order : forall old new, StronglySorted (fun a b =>
    (breaking a = true -> breaking b = true) /\ (non_breaking b = true -> non_breaking a = true) /\
    (rank (criticality_of a) = rank (criticality_of b) -> ~ tlt (reason_of (criticality_of a)) (reason_of (criticality_of b))))
  (compare old new).
Proof.
  intros old new. unfold compare. generalize (sort_sorted (schema_diff old new)). generalize (sort_changes (schema_diff old new)). intros l.
  induction 1 as [|x l H IH F]; constructor; auto. eapply Forall_impl; [|exact F]. cbn. intros y B. apply before_spec in B.
  unfold breaking, non_breaking, rank in *. destruct (criticality_of x), (criticality_of y); cbn in *;
    (split; [intros; first [reflexivity | discriminate | lia]|]); (split; [intros; first [reflexivity | discriminate | lia]|]); intros R L; try lia;
    destruct B as [B|(_ & [B|B])]; try lia; try (subst; now apply tlt_irrefl in L); eapply tlt_irrefl, tcmp_lt_trans; eassumption.
Qed.
Theorem c47_stable : forall old new k, let p := fun c => match criticality_cmp (criticality_of c) k with Eq => true | _ => false end in
  filter p (compare old new) = filter p (schema_diff old new).
Proof. intros old new k. apply sort_stable. Qed.

(** ** Examples and counterexamples *)
(** A check for the hypotheses *)
Definition fields_of (s : schema) : list (list fdef) :=
  flat_map (fun t => match t with DObject d => [ob_fields d] | DInterface d => [if_fields d] | _ => [] end) (s_types s).
Definition inputs_of (s : schema) : list (list ivd) :=
  flat_map (map fd_args) (fields_of s) ++ flat_map (fun t => match t with DInput d => [io_fields d] | _ => [] end) (s_types s) ++ map dd_args (s_ddefs s).
Definition directives_of (s : schema) : list (list directive) :=
  s_dirs s :: flat_map (fun t => match t with DScalar d => [sc_dirs d] | DObject d => [ob_dirs d] | DInterface d => [if_dirs d] | DUnion d => [un_dirs d]
    | DEnum d => en_dirs d :: map ev_dirs (en_values d) | DInput d => [io_dirs d] | DBuiltin _ => [] end) (s_types s) ++
  flat_map (map fd_dirs) (fields_of s) ++ flat_map (map iv_dirs) (inputs_of s).
Definition values_of (s : schema) : list value :=
  flat_map (fun i => match iv_default i with Some v => [v] | None => [] end) (concat (inputs_of s)) ++ map snd (flat_map dir_args (concat (directives_of s))).
Fixpoint float_free (v : value) : bool :=
  match v with VFloat _ => false | VList l => forallb float_free l | VObj o => forallb (fun p => float_free (snd p)) o | _ => true end.
Definition unique (l : list name) : bool := match duplicates (fun x => x) l with [] => true | _ => false end.
Definition checked (s : schema) : bool :=
  unique (map td_name (s_types s)) && unique (map dd_name (s_ddefs s)) && forallb (fun l => unique (map fd_name l)) (fields_of s) &&
  forallb (fun l => unique (map iv_name l)) (inputs_of s) && forallb (fun t => match t with DEnum d => unique (map ev_name (en_values d)) | _ => true end) (s_types s) &&
  forallb (fun l => unique (map dir_name l) && forallb (fun d => unique (map fst (dir_args d))) l) (directives_of s) && forallb float_free (values_of s).

Lemma unique_NoDup l : unique l = true -> NoDup l.
Proof. unfold unique. intros H. rewrite <- (map_id l). apply (proj1 (duplicates_nil (fun x => x) l)). now destruct (duplicates (fun x => x) l). Qed.
Lemma float_free_every P v : float_free v = true -> every_float P v.
Proof.
  induction v as [| | | | | | |l IH|o IH] using value_ind'; intros H; try constructor; try discriminate; cbn [float_free] in H; rewrite forallb_forall in H;
    rewrite Forall_forall in *; auto.
Qed.
Lemma fields_of_In s l : fields_in s l -> In l (fields_of s).
Proof. unfold fields_of. rewrite in_flat_map. intros [d H|d H]; eexists; split; try exact H; now left. Qed.
Lemma inputs_of_In s l : inputs_in s l -> In l (inputs_of s).
Proof.
  unfold inputs_of. rewrite !in_app_iff, !in_flat_map, in_map_iff. intros [l' f H I|d H|d H].
  - left. exists l'. split; [now apply fields_of_In|]. apply in_map_iff. eauto.
  - right. left. eexists. split; [exact H|]. now left.
  - right. right. eauto.
Qed.
Lemma directives_of_In s l : directives_in s l -> In l (directives_of s).
Proof.
  unfold directives_of. intros H. destruct H; [now left|..]; right; rewrite !in_app_iff, !in_flat_map.
  all: try (left; eexists; split; [exact H|]; cbn; now left).
  - left. eexists. split; [exact H|]. right. now apply in_map.
  - right. left. eexists. split; [apply fields_of_In; exact H|]. now apply in_map.
  - right. right. eexists. split; [apply inputs_of_In; exact H|]. now apply in_map.
Qed.
Lemma values_of_In s v : value_in s v -> In v (values_of s).
Proof.
  unfold values_of. rewrite in_app_iff, in_flat_map, in_map_iff. intros [l i w H I E|l d a w H I A].
  - left. exists i. split; [apply in_concat; exists l; split; [now apply inputs_of_In|exact I]|]. rewrite E. now left.
  - right. exists (a, w). split; [reflexivity|]. apply in_flat_map. exists d. split; [|exact A]. apply in_concat. exists l. split; [now apply directives_of_In|exact I].
Qed.
Lemma checked_ok s : checked s = true -> names_once s /\ floats s /\ without_nan s.
Proof.
  unfold checked. rewrite !andb_true_iff, !forallb_forall. intros ((((((T & D) & F) & I) & E) & A) & V).
  split; [|split; intros v H; apply float_free_every, V; now apply values_of_In]. split.
  - now apply unique_NoDup.
  - now apply unique_NoDup.
  - intros l H. apply unique_NoDup, F. now apply fields_of_In.
  - intros l H. apply unique_NoDup, I. now apply inputs_of_In.
  - intros d H. apply unique_NoDup. exact (E _ H).
  - intros l H. apply directives_of_In, A in H. apply andb_true_iff in H as [H _]. now apply unique_NoDup.
  - intros l d H J. apply directives_of_In, A in H. apply andb_true_iff in H as [_ H]. rewrite forallb_forall in H. apply unique_NoDup. now apply H.
Qed.

(** [compared a b k]: the texts are read as the schemas given to [k] *)
Definition compared (a b : string) (k : schema -> schema -> Prop) : Prop :=
  exists s t, run a = inl (inl s) /\ run b = inl (inl t) /\ k s t.
Ltac compared := eexists; eexists; split; [vm_compute; reflexivity|]; split; [vm_compute; reflexivity|].

Definition rich : string := "interface N { id: ID! @d } type Query implements N @d(a: [1]) { id: ID! f(a: I = {x: 2}, e: E = B): U } input I @d { x: Int = 1 @d }
  enum E { A B @d } union U @d = Query | Mutation type Mutation { a: S } scalar S directive @d(a: [Int]) on FIELD_DEFINITION | OBJECT".
Example c44_case : compared rich rich (fun s _ => names_once s /\ floats s /\ without_nan s /\ compare s s = []).
Proof.
  compared. match goal with |- names_once ?s /\ _ => assert (C : checked s = true) by (vm_compute; reflexivity) end.
  apply checked_ok in C as (U & F & N). split; [exact U|]. split; [exact F|]. split; [exact N|]. now apply c44_self.
Qed.
(** The condition on directives is needed: a schema that applies a repeatable directive twice, with different arguments, shows
    a change against itself (directives are paired by name: diff/directive.rs). *)
Theorem c44_repeatable_refuted : exists text s, run text = inl (inl s) /\ map path_of (compare s s) = [tx "@d.a"].
Proof.
  exists "directive @d(a: Int) repeatable on OBJECT type Query @d(a: 1) @d(a: 2) { x: Int }". eexists. split; vm_compute; reflexivity.
Qed.

Definition summary_of (l : list change) : list (nat * text) := map (fun c => (rank (criticality_of c), path_of c)) l.
Definition expected (l : list (nat * string)) : list (nat * text) := map (fun p => (fst p, tx (snd p))) l.
Example c45_case : compared
  "type Query { a: Int b(x: Int, y: Int = 1): String! } enum E { A B } input I { p: Int q: Int } union U = Query"
  "type Query { a: Int! c: Int b(x: String, z: Int!): String } enum E { A C } input I { p: Int! r: Int } union U = M type M { x: Int }"
  (fun s t => names_once s /\ names_once t /\ floats s /\ floats t /\
    summary_of (compare s t) = expected
      [(2, "M"); (2, "I.r"); (2, "Query.c"); (2, "Query.a"); (1, "E.C"); (1, "U"); (0, "I.q"); (0, "E.B"); (0, "U"); (0, "Query.b.y"); (0, "I.p");
       (0, "Query.b.x"); (0, "Query.b"); (0, "Query.b.z")]).
Proof.
  compared. match goal with |- names_once ?s /\ names_once ?t /\ _ => assert (C : checked s = true) by (vm_compute; reflexivity); assert (D : checked t = true) by (vm_compute; reflexivity) end.
  apply checked_ok in C as (U & F & N). apply checked_ok in D as (U' & F' & N'). split; [exact U|]. split; [exact U'|]. split; [exact F|]. split; [exact F'|].
  vm_compute. reflexivity.
Qed.
(** The claim of C45 is false of some pairs of schemas. A required argument added to a directive definition that had no arguments
    is not reported, although every use of the directive becomes invalid (diff/directive_definition.rs map_or(false, ..)). *)
Theorem c45_directive_argument_added_refuted : compared
  "directive @d on FIELD type Query { x: Int }" "directive @d(a: Int!) on FIELD type Query { x: Int }"
  (fun s t => names_once s /\ names_once t /\ floats s /\ floats t /\
    (exists d a, real s t (DirectiveDefinitionArgumentAdded d a) /\ breaking (DirectiveDefinitionArgumentAdded d a) = true) /\ compare s t = []).
Proof.
  compared. match goal with |- names_once ?s /\ names_once ?t /\ _ => assert (C : checked s = true) by (vm_compute; reflexivity); assert (D : checked t = true) by (vm_compute; reflexivity) end.
  apply checked_ok in C as (U & F & N). apply checked_ok in D as (U' & F' & N'). split; [exact U|]. split; [exact U'|]. split; [exact F|]. split; [exact F'|].
  clear. split; [|vm_compute; reflexivity].
  eexists {| dd_name := tx "d" |}, {| iv_name := tx "a"; iv_type := TBase (tx "Int") true; iv_default := None |}. split; [|reflexivity].
  eapply r_ddef_arg_added; [split; [|split]|split]; [now left|now left|reflexivity|now left|intros y []].
Qed.
(** Nor is the removal of all the arguments of a directive definition, which breaks every use with arguments. *)
Theorem c45_directive_arguments_removed_refuted : compared
  "directive @d(a: Int) on FIELD type Query { x: Int }" "directive @d on FIELD type Query { x: Int }"
  (fun s t => (exists d a, real s t (DirectiveDefinitionArgumentRemoved d a)) /\ compare s t = []).
Proof.
  compared. split; [|vm_compute; reflexivity].
  eexists {| dd_name := tx "d" |}, {| iv_name := tx "a"; iv_type := TBase (tx "Int") false; iv_default := None |}.
  eapply r_ddef_arg_removed; [split; [|split]|split]; [now left|now left|reflexivity|now left|intros y []].
Qed.
(** A directive put on an input object type is reported as put on its fields, too. *)
Theorem c45_misplaced_refuted : compared
  "directive @d on INPUT_OBJECT type Query { x(i: I): Int } input I { p: Int }" "directive @d on INPUT_OBJECT type Query { x(i: I): Int } input I @d { p: Int }"
  (fun s t => exists d, In (DirectiveAdded LInputFieldDefinition (tx "p") d) (compare s t) /\ ~ real s t (DirectiveAdded LInputFieldDefinition (tx "p") d)).
Proof.
  compared. exists {| dir_name := tx "d"; dir_args := [] |}. split.
  - vm_compute. auto 10.
  - intros R. inversion R as [| | | | | | | | | | | | | | | | | | | | | | | | | | | | | | | | | | |l m ds ds' d A O| | | |]; subst.
    destruct A as [A|[A|[A|[A|A]]]]; try (inversion A; fail).
    inversion A as [a b f g ((IA & IB & _) & If & Ig & _)]. subst. destruct O as [O _]. revert O.
    assert (G : forall s, forallb (fun t => match t with DInput d => forallb (fun i => match iv_dirs i with [] => true | _ => false end) (io_fields d) | _ => true end) (s_types s) = true ->
      In (DInput b) (s_types s) -> iv_dirs g = []).
    { intros s E I. rewrite forallb_forall in E. specialize (E _ I). cbn in E. rewrite forallb_forall in E. specialize (E _ Ig). now destruct (iv_dirs g). }
    assert (E : iv_dirs g = []) by (eapply G; [|exact IB]; vm_compute; reflexivity). rewrite E. intros [].
Qed.
(** Some differences are no change at all for the comparison: root operation types, the interfaces of an interface, whether a
    directive is repeatable, the description of the schema. *)
Theorem c45_silent_refuted :
  compared "schema { query: A } type A { x: Int } type B { y: Int }" "schema { query: B } type A { x: Int } type B { y: Int }"
    (fun s t => s_query s <> s_query t /\ filter (fun c => match c with FieldAdded f _ | FieldRemoved f _ => negb (fd_builtin f) | _ => true end) (compare s t) = []) /\
  compared "schema { query: A mutation: B } type A { x: Int } type B { y: Int }" "schema { query: A } type A { x: Int } type B { y: Int }"
    (fun s t => s_mutation s <> s_mutation t /\ compare s t = []) /\
  compared "type Query { x: N } interface M { x: Int } interface N implements M { x: Int }" "type Query { x: N } interface M { x: Int } interface N { x: Int }"
    (fun s t => s <> t /\ compare s t = []) /\
  compared "directive @d repeatable on FIELD type Query { x: Int }" "directive @d on FIELD type Query { x: Int }"
    (fun s t => map dd_repeatable (s_ddefs s) <> map dd_repeatable (s_ddefs t) /\ compare s t = []).
Proof. repeat split; compared; (split; [discriminate|vm_compute; reflexivity]). Qed.

Example c46_case_types :
  let t n := {| fd_name := []; fd_desc := None; fd_args := []; fd_type := n; fd_dirs := []; fd_builtin := false |} in
  let i n := {| iv_name := []; iv_desc := None; iv_type := n; iv_default := None; iv_dirs := [] |} in
  let Int b := TBase (tx "Int") b in
  non_breaking (FieldTypeChanged [] (t (TList (Int false) false)) (t (TList (Int true) true))) = true /\
  breaking (FieldTypeChanged [] (t (TList (Int true) false)) (t (TList (Int false) true))) = true /\
  non_breaking (FieldArgumentTypeChanged [] (t (Int true)) (i (TList (Int true) true)) (i (TList (Int false) false))) = true /\
  breaking (FieldArgumentTypeChanged [] (t (Int true)) (i (Int true)) (i (TList (Int true) true))) = true.
Proof. repeat split. Qed.
Example c46_case_added :
  let i n d := {| iv_name := tx "a"; iv_desc := None; iv_type := TBase (tx "Int") n; iv_default := d; iv_dirs := [] |} in
  let d := {| io_name := tx "I"; io_desc := None; io_dirs := []; io_fields := [] |} in
  non_breaking (InputFieldAdded d (i false None)) = true /\ non_breaking (InputFieldAdded d (i true (Some (VInt 1)))) = true /\
  breaking (InputFieldAdded d (i true None)) = true /\
  input_type_change (InputFieldTypeChanged d (i true None) (i false None)) (i true None) (i false None) /\
  argument_added (DirectiveDefinitionArgumentAdded {| dd_name := []; dd_desc := None; dd_args := []; dd_repeatable := false; dd_locs := []; dd_builtin := false |} (i true None)) (i true None).
Proof. repeat split; unfold input_type_change, argument_added; eauto. Qed.
(** Dropping the default value of a non-null argument makes it required, which breaks clients that leave it out; it is only called
    dangerous. *)
Theorem c46_default_dropped : compared "type Query { x(a: Int! = 1): Int }" "type Query { x(a: Int!): Int }"
  (fun s t => exists n f a b, compare s t = [FieldArgumentDefaultValueChanged n f a b] /\ dangerous (FieldArgumentDefaultValueChanged n f a b) = true /\
    missing_args (OwnField f) [] [a] = [] /\ missing_args (OwnField f) [] [b] <> []).
Proof. compared. do 4 eexists. split; [vm_compute; reflexivity|]. repeat split. discriminate. Qed.

(** The claim of C47 about the order is false: a safe change is put before a breaking one. [Criticality] derives its order from the
    order of its variants, [Breaking] first, and [changes.sort_by_key(Reverse(criticality))] sorts the greatest first. *)
Theorem c47_breaking_first_refuted : compared "type Query { x: Int z: Int }" "type Query { x: Int y: Int }"
  (fun s t => exists a b, compare s t = [a; b] /\ non_breaking a = true /\ breaking b = true).
Proof. compared. do 2 eexists. repeat split; vm_compute; reflexivity. Qed.

Print Assumptions c44_self. Print Assumptions c45_reported_partial. Print Assumptions c45_existence_and_types. Print Assumptions c45_real_partial.
Print Assumptions c45_misplaced. Print Assumptions c46_field_type. Print Assumptions c46_input_type. Print Assumptions c46_input_field_added.
Print Assumptions c46_input_field_added_accepts. Print Assumptions c46_argument_added. Print Assumptions c46_removals_break. Print Assumptions c47_permutation_partial.
Print Assumptions c47_partition. Print Assumptions c47_order. Print Assumptions c47_stable. Print Assumptions c44_repeatable_refuted.
Print Assumptions c45_directive_argument_added_refuted. Print Assumptions c45_directive_arguments_removed_refuted. Print Assumptions c45_misplaced_refuted. Print Assumptions c45_silent_refuted.
Print Assumptions c46_default_dropped. Print Assumptions c47_breaking_first_refuted.
