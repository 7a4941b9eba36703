(** Property C68: the path of a reported change leads to what changed, and its message tells what happened to it. *)
From Coq Require Import String Lia.
From Verif Require Import Base Ast Maps LexerSpec ValueEq ValueEqSpec Printer Compare CompareSpec CompareProofs CompareProps ResolveProps
  ChangeText ChangeTextSpec ChangeTextProofs ChangeMessageProofs.
Local Open Scope string_scope.
Local Open Scope list_scope.

(** both schemas have GraphQL names, each given once, and 64 bit floats *)
Record comparable (old new : schema) : Prop := {
  cp_names_old : graphql_names old; cp_names_new : graphql_names new;
  cp_once_old : names_once old; cp_once_new : names_once new;
  cp_floats_old : floats old; cp_floats_new : floats new }.

(** a path leads to one thing *)
Theorem c68_one_item : forall s p x y, graphql_names s -> names_once s -> leads s p x -> leads s p y -> x = y.
Proof. intros s p x y G U. now apply leads_functional. Qed.

Lemma reported_real old new c : floats old -> floats new -> In c (compare old new) -> ~ to_applied_directives c -> real old new c.
Proof.
  intros Fo Fn H A. apply c45_real_partial in H as [H|H]; auto. exfalso. apply A. now destruct H.
Qed.
(** The path of a reported change leads to the thing that was added, removed or changed: in the new schema and nowhere in the old
    one if it was added, in the old schema and nowhere in the new one if it was removed, to the old and to the new form
    if it was changed. Changes to applied directives are left out: see below. *)
Theorem c68_path_partial : forall old new c, comparable old new -> In c (compare old new) -> ~ to_applied_directives c ->
  exists e, effect_of c e /\ happens old new (path_of c) e.
Proof. intros old new c [] H A. apply real_happens; auto. now apply reported_real. Qed.
(** The message names what is at the path, and shows the old and the new type, description or default value, the interface, member
    or location. *)
Theorem c68_message_named_partial : forall print_float old new c, comparable old new -> In c (compare old new) -> ~ to_applied_directives c ->
  match c with FieldArgumentDescriptionChanged _ _ _ _ | FieldArgumentTypeChanged _ _ _ _ => False | _ => True end ->
  names_path (message_of print_float c) (path_of c).
Proof. intros pf old new c [] H A N. apply (message_names pf old new); auto. now apply reported_real. Qed.
Theorem c68_message_details_partial : forall print_float old new c, comparable old new -> In c (compare old new) -> ~ to_applied_directives c ->
  contains (message_of print_float c) (map quoted (details c)) /\
  contains (message_of print_float c) (map quoted (default_details (print_value print_float) c)).
Proof.
  intros pf old new c [] H A. apply reported_real in H; auto. split.
  - now apply (message_details pf old new).
  - now apply (message_default_details pf old new).
Qed.
(** Two reported changes with the same path and the same message are the same, whatever the descriptions contain. *)
Theorem c68_identified_partial : forall print_float old new c c', comparable old new -> In c (compare old new) -> In c' (compare old new) ->
  ~ to_applied_directives c -> ~ to_applied_directives c' ->
  path_of c = path_of c' -> message_of print_float c = message_of print_float c' -> c = c'.
Proof. intros pf old new c c' [] H H' A A'. apply (identified pf old new); auto; now apply reported_real. Qed.

(** ** Examples and counterexamples *)
Definition name_ok (n : text) : bool :=
  match n with
  | c :: n' => let start c := (N.eqb c 95 || (N.leb 65 c && N.leb c 90) || (N.leb 97 c && N.leb c 122)) in start c && forallb (fun c => start c || (N.leb 48 c && N.leb c 57)) n'
  | [] => false
  end.
Lemma name_ok_ok n : name_ok n = true -> is_name n.
Proof.
  destruct n as [|c n]; [discriminate|]. cbn. rewrite andb_true_iff, forallb_forall, !orb_true_iff, !andb_true_iff, N.eqb_eq, !N.leb_le. intros (H & F).
  split; [unfold name_start; lia|]. apply Forall_forall. intros x I. apply F in I. rewrite !orb_true_iff, !andb_true_iff, N.eqb_eq, !N.leb_le in I.
  unfold name_continue, name_start, digit. lia.
Qed.
Definition names_checked (s : schema) : bool :=
  forallb (fun t => name_ok (td_name t) && match t with DEnum d => forallb (fun v => name_ok (ev_name v)) (en_values d) | DObject d => forallb name_ok (ob_ifaces d)
    | DUnion d => forallb name_ok (un_members d) | _ => true end) (s_types s) && forallb (fun d => name_ok (dd_name d)) (s_ddefs s) &&
  forallb (forallb (fun f => name_ok (fd_name f))) (fields_of s) && forallb (forallb (fun f => name_ok (iv_name f))) (inputs_of s).
Lemma names_checked_ok s : names_checked s = true -> graphql_names s.
Proof.
  unfold names_checked. rewrite !andb_true_iff, !forallb_forall. intros (((T & D) & F) & I). split.
  - intros t H. apply T, andb_true_iff in H as (H & _). now apply name_ok_ok.
  - intros d H. now apply name_ok_ok, D.
  - intros l f H K. apply fields_of_In, F in H. rewrite forallb_forall in H. now apply name_ok_ok, H.
  - intros l f H K. apply inputs_of_In, I in H. rewrite forallb_forall in H. now apply name_ok_ok, H.
  - intros d v H K. apply T, andb_true_iff in H as (_ & H). rewrite forallb_forall in H. now apply name_ok_ok, H.
  - intros d v H K. apply T, andb_true_iff in H as (_ & H). rewrite forallb_forall in H. now apply name_ok_ok, H.
  - intros d v H K. apply T, andb_true_iff in H as (_ & H). rewrite forallb_forall in H. now apply name_ok_ok, H.
Qed.
Lemma comparable_ok s t : names_checked s && names_checked t && checked s && checked t = true -> comparable s t.
Proof.
  rewrite !andb_true_iff. intros (((N & M) & C) & D). apply checked_ok in C as (U & F & _). apply checked_ok in D as (V & G & _).
  split; auto using names_checked_ok.
Qed.
Definition texts (l : list change) : list (text * text) := map (fun c => (path_of c, message_of (fun _ => []) c)) l.
Definition reads (l : list (string * string)) : list (text * text) := map (fun p => (tx (fst p), tx (snd p))) l.
Example c68_case : compared
  "type Query implements N { id: ID! a: Int b(x: Int, y: Int = 1): String! } interface N { id: ID! } enum E { A B } input I { p: Int q: Int = 1 } union U = Query
   directive @d(x: Int) on FIELD | QUERY"
  "type Query { id: ID! a: Int! c: Int b(x: String, y: Int = 2, z: Int!): String } interface N { id: ID! } enum E { A C } input I { p: Int! q: Int } union U = M
   type M { x: Int } directive @d(x: Int = 3) on FIELD"
  (fun s t => comparable s t /\ texts (compare s t) = reads
    [("M", "Type `M` was added"); ("Query.c", "Field `c` was added to object type `Query`"); ("Query.a", "Field `Query.a` changed type from `Int` to `Int!`.");
     ("I.q", "Default value `1` was removed from input field `I.q`");
     ("Query.b.y", "Default value for argument `y` on field `Query.b` was changed from `1` to `2`");
     ("@d.x", "Default value `3` was added to directive argument `d.x`"); ("E.C", "Enum value `C` was added to enum `E`");
     ("U", "Union member `M` was added to union type `U`"); ("@d", "Location `QUERY` was removed from directive `d`");
     ("Query", "`Query` object type no longer implements `N` interface"); ("E.B", "Enum value `B` was removed from enum `E`");
     ("U", "Union member `Query` was removed from union type `U`"); ("I.p", "Input field `I.p` changed type from `Int` to `Int!`");
     ("Query.b.x", "Type for argument `x` on field `b.Query` changed from `Int` to `String`");
     ("Query.b", "Field `Query.b` changed type from `String!` to `String`."); ("Query.b.z", "Argument `z` was added to field `Query.b`")]).
Proof. compared. split; [apply comparable_ok; vm_compute; reflexivity|]. vm_compute. reflexivity. Qed.

Definition type_at (s : schema) (n : string) : option tdef := find (fun t => teqb (td_name t) (tx n)) (s_types s).
Lemma type_at_leads s n t : type_at s n = Some t -> leads s (tx n) (IType t).
Proof. intros H. apply find_some in H as (H & E). apply teqb_eq in E. rewrite <- E. now constructor. Qed.
Lemma argument_leads s n d f g a l p : type_at s n = Some (DObject d) -> ob_fields d = g :: f :: l -> fd_args f = [a] ->
  p = dotted [tx n; fd_name f; iv_name a] -> leads s p (IArgument (DObject d) f a).
Proof.
  intros H F A ->. apply find_some in H as (H & E). apply teqb_eq in E. rewrite <- E, path3. constructor.
  - constructor; auto. rewrite F. right. now left.
  - rewrite A. now left.
Qed.
(** The type of the argument [id] of [Query.user] is changed; the message says that of [user.Query], which exists and is
    unchanged (changes.rs: [field.name()] and [type_name] are swapped). *)
Theorem c68_swapped_refuted : compared
  "type Query { user(id: Int): user } type user { Query(id: Int): Int }" "type Query { user(id: Int!): user } type user { Query(id: Int): Int }"
  (fun s t => comparable s t /\
    texts (compare s t) = reads [("Query.user.id", "Type for argument `id` on field `user.Query` changed from `Int` to `Int!`")] /\
    exists x, leads s (tx "user.Query.id") x /\ leads t (tx "user.Query.id") x).
Proof.
  compared. split; [apply comparable_ok; vm_compute; reflexivity|]. split; [vm_compute; reflexivity|].
  eexists. split; eapply (argument_leads _ "user"); vm_compute; reflexivity.
Qed.
(** A change to a directive's argument does not say where: two changes that cannot be told apart. *)
Theorem c68_no_place_refuted : compared
  "type Query { a: Int @deprecated(reason: ""x"") b: Int @deprecated(reason: ""x"") }" "type Query { a: Int @deprecated(reason: ""y"") b: Int @deprecated(reason: ""y"") }"
  (fun s t => comparable s t /\ texts (compare s t) = reads
    [("@deprecated.reason", "Value for argument `reason` on directive `deprecated` changed from ""x"" to ""y""");
     ("@deprecated.reason", "Value for argument `reason` on directive `deprecated` changed from ""x"" to ""y""")]).
Proof. compared. split; [apply comparable_ok; vm_compute; reflexivity|]. vm_compute; reflexivity. Qed.
(** The path of a directive put on a type is the directive's name without the at sign: it may lead to a type that did not change. *)
Theorem c68_directive_path_refuted : compared
  "directive @Pet on OBJECT type Query { pet: Pet } type Pet { x: Int }" "directive @Pet on OBJECT type Query @Pet { pet: Pet } type Pet { x: Int }"
  (fun s t => comparable s t /\ texts (compare s t) = reads [("Pet", "Directive `Pet` was added to object `Query`")] /\
    exists x, leads s (tx "Pet") (IType x) /\ leads t (tx "Pet") (IType x)).
Proof.
  compared. split; [apply comparable_ok; vm_compute; reflexivity|]. split; [vm_compute; reflexivity|].
  eexists. split; refine (type_at_leads _ "Pet" _ _); vm_compute; reflexivity.
Qed.
(** An enum type is called [unknown], an interface an object type. *)
Theorem c68_kind_words_refuted :
  compared "directive @d on ENUM type Query { x: E } enum E { A }" "directive @d on ENUM type Query { x: E } enum E @d { A }"
    (fun s t => comparable s t /\ texts (compare s t) = reads [("d", "Directive `d` was added to unknown `E`")]) /\
  compared "interface N { a: Int } type Query { x: N }" "interface N { a: Int b: Int } type Query { x: N }"
    (fun s t => comparable s t /\ texts (compare s t) = reads [("N.b", "Field `b` was added to object type `N`")]).
Proof. split; compared; (split; [apply comparable_ok; vm_compute; reflexivity|]); vm_compute; reflexivity. Qed.

Print Assumptions c68_one_item.
Print Assumptions c68_path_partial.
Print Assumptions c68_message_named_partial.
Print Assumptions c68_message_details_partial.
Print Assumptions c68_identified_partial.
Print Assumptions c68_case.
Print Assumptions c68_swapped_refuted.
Print Assumptions c68_no_place_refuted.
Print Assumptions c68_directive_path_refuted.
Print Assumptions c68_kind_words_refuted.
