(** Property C73: the errors of validation, converted to messages with marks on the text of the query. *)
From Coq Require Import String Lia Permutation.
From Verif Require Import Base Ast Graph Maps Lexer LexerSpec LexerProps Parser ParserSpec ParserProps Location LocationSpec LocationProofs LocationProps DefParser DefParserProps Resolve ResolveSpec ResolveProofs ResolveProps
  ParserAt ParserAtSpec SpanProps CoercionTypes CoercionSpec Doc DocRules DocSpec DocVariables Merging MergingProps MergingCases Validator ValidatorProofs EndToEndProofs ValidatorProps ValidatorCases TypegenSpec TypegenInputCases
  CoercionAt ValidatorAt ValidatorAtSpec ValidatorAtProofs ValidatorErrorProofs TokenValueProofs ValidatorMarkProofs.
Local Open Scope string_scope.
Local Open Scope list_scope.

(** the converted errors of a document, or a panic *)
Definition converted_errors (S : schema) (hook : name -> value -> option text) (str_enum one_of : bool) ord (d : ldocument) : option (list err) :=
  option_map (map (validation_error d)) (validate_at S hook str_enum one_of ord d).

Lemma read_schema_inputs so dor recover other_digit parse_f64 st S :
  read_schema_with so dor recover other_digit parse_f64 st = inl (inl S) -> forall v, value_defined (s_types S) (s_ddefs S) v -> input_typed S (iv_type v).
Proof.
  unfold read_schema_with. destruct (parse_schema_text _ _ _ _ _ _) as [d|]; [|discriminate]. destruct (Resolve.resolve d) as [y|] eqn:E; [|discriminate]. intros [= <-] v Hv.
  pose proof (c13_references _ _ E) as R. apply resolve_schema in E. destruct (ro_values _ _ R v Hv) as (u & I & N & K). exists u. rewrite <- N. split; [|exact K]. apply get_type_sorted; [exact (so_types_sorted _ _ E)|exact I].
Qed.

(** Every query text that can be read gets, from every schema text that can be read, the errors of C59 and C60, each converted:
    the converted error says and marks what [told] asks for. *)
Theorem c73_told : forall so dor recover other_digit parse_f64 recover' other_digit' parse_f64' schema_text s S d,
  read_schema_with so dor recover other_digit parse_f64 schema_text = inl (inl S) ->
  parse_text_at recover' other_digit' parse_f64' s = inl d ->
  forall hook str_enum one_of ord, some_order ord ->
  exists errors converted, validate S hook str_enum one_of ord (plain_document d) = Some errors /\ converted_errors S hook str_enum one_of ord d = Some converted /\
    Forall2 (told S d hook str_enum one_of) errors converted.
Proof.
  intros so dor rc od pf rc' od' pf' st s S d HS HQ hook se oo ord Ho.
  assert (T : exists errors, validate S hook se oo ord (plain_document d) = Some errors) by (apply validate_total; auto; apply rs_wf; eapply read_schema_resolved; eauto).
  destruct T as (errors & E). pose proof (validate_same S hook se oo ord d) as V. rewrite E in V. destruct (validate_at S hook se oo ord d) as [les|] eqn:L; [|discriminate]. injection V as <-.
  exists (map plain_error les), (map (validation_error d) les). split; [exact E|]. unfold converted_errors. rewrite L. split; [reflexivity|].
  pose proof (validate_told S d hook se oo (parsed_tokens rc' od' pf' s d HQ) ord (some_order_In ord Ho) les L) as F. clear - F. induction F; constructor; auto.
Qed.
(** The document is the one that reading without positions gives. *)
Theorem c73_same_document : forall recover other_digit parse_f64 s d, parse_text_at recover other_digit parse_f64 s = inl d ->
  parse_text recover other_digit parse_f64 s = inl (plain_document d).
Proof. intros rc od pf s d H. pose proof (c63_same_documents rc od pf s) as K. rewrite H in K. exact K. Qed.
(** All that is marked is a part of the text, from the first byte of a part to its last one, or from one part to another. *)
Theorem c73_marked : forall so dor recover other_digit parse_f64 recover' other_digit' parse_f64' schema_text s S d,
  read_schema_with so dor recover other_digit parse_f64 schema_text = inl (inl S) ->
  (forall l b, parse_f64' l = Some b -> Forall (fun c => c < 128)%N l) -> other_digit' 65279%N = false ->
  parse_text_at recover' other_digit' parse_f64' s = inl d ->
  forall hook str_enum one_of ord converted, some_order ord -> converted_errors S hook str_enum one_of ord d = Some converted ->
  forall er a, In er converted -> In a (annotations er) ->
  of_parts (document_nodes d) (snd a) /\ exists p m q, s = p ++ m ++ q /\ snd a = (bytes p, bytes (p ++ m)) /\ m <> [].
Proof.
  intros so dor rc od pf rc' od' pf' st s S d HS Hf Hd HQ hook se oo ord cv Ho HC er a He Ha.
  destruct (c73_told _ _ _ _ _ rc' od' pf' _ s S d HS HQ hook se oo ord Ho) as (errors & cv' & _ & E & F). rewrite HC in E. injection E as <-.
  assert (T : exists e, told S d hook se oo e er) by (clear - F He; induction F as [|x y l l' H _ IH]; [destruct He|destruct He as [<-|He]; eauto]). destruct T as (e & T).
  pose proof (proj1 (Forall_forall _ _) (told_marks S d hook se oo e er T) a Ha) as M. cbn beta in M. split; [exact M|].
  assert (K : forall sp, of_part (document_nodes d) sp -> exists p m q, s = p ++ m ++ q /\ sp = (bytes p, bytes (p ++ m)) /\ m <> []).
  { intros sp (n & Hn & ->). destruct (c63_part_text rc' od' pf' s d Hf Hd HQ n Hn) as (p & m & q & E1 & E2 & E3 & _). eauto 8. }
  destruct M as [M|(x & y & Mx & My & ->)]; [exact (K _ M)|]. destruct (K x Mx) as (p & m & q & E1 & -> & E3). destruct (K y My) as (p' & m' & q' & E1' & -> & E3').
  unfold merge. cbn [fst snd]. clear - E1 E1' E3 E3'.
  assert (Z : forall (u v w x : text), u ++ v = w ++ x -> length u <= length w -> exists k, w = u ++ k /\ v = k ++ x).
  { induction u as [|c u IH]; intros v w x E L; [exists w; auto|]. destruct w as [|c' w]; [cbn in L; lia|]. injection E as -> E. destruct (IH v w x E) as (k & -> & ->); [cbn in L; lia|]. exists k. auto. }
  assert (B : forall u k : text, bytes u <= bytes (u ++ k)) by (intros; rewrite bytes_app; lia).
  assert (P1 : exists p0 k, Nat.min (bytes p) (bytes p') = bytes p0 /\ s = p0 ++ k /\ length p0 <= length p /\ length p0 <= length p').
  { destruct (Nat.le_ge_cases (length p) (length p')) as [L|L].
    - destruct (Z p (m ++ q) p' (m' ++ q') ltac:(congruence) L) as (k & -> & _). exists p, (m ++ q). rewrite Nat.min_l by apply B. rewrite app_length. repeat split; auto; lia.
    - destruct (Z p' (m' ++ q') p (m ++ q) ltac:(congruence) L) as (k & -> & _). exists p', (m' ++ q'). rewrite Nat.min_r by apply B. rewrite app_length. repeat split; auto; lia. }
  assert (P2 : exists r k, Nat.max (bytes (p ++ m)) (bytes (p' ++ m')) = bytes r /\ s = r ++ k /\ length (p ++ m) <= length r).
  { assert (E2 : s = (p ++ m) ++ q) by (rewrite <- app_assoc; exact E1). assert (E2' : s = (p' ++ m') ++ q') by (rewrite <- app_assoc; exact E1').
    destruct (Nat.le_ge_cases (length (p ++ m)) (length (p' ++ m'))) as [L|L].
    - destruct (Z (p ++ m) q (p' ++ m') q' ltac:(congruence) L) as (k & Ek & _). exists (p' ++ m'), q'. rewrite Nat.max_r by (rewrite Ek; apply B). auto.
    - destruct (Z (p' ++ m') q' (p ++ m) q ltac:(congruence) L) as (k & Ek & _). exists (p ++ m), q. rewrite Nat.max_l by (rewrite Ek; apply B). auto. }
  destruct P1 as (p0 & k & -> & S1 & L1 & _). destruct P2 as (r & k' & -> & S2 & L2). rewrite app_length in L2. destruct (Z p0 k r k' ltac:(congruence) ltac:(lia)) as (mid & -> & ->).
  exists p0, mid, k'. split; [exact S1|]. split; [reflexivity|]. intros ->. rewrite app_nil_r in L2. destruct m; [congruence|cbn in L2; lia].
Qed.
(** None is lost when they become GraphQL errors: each gives one for its primary mark or one for each of its other marks, at least
    one, and each stands at the line and column where a part of the document begins. *)
Theorem c73_located : forall search offset_line further so dor recover other_digit parse_f64 recover' other_digit' parse_f64' schema_text s S d,
  searches search -> tells_places further offset_line ->
  read_schema_with so dor recover other_digit parse_f64 schema_text = inl (inl S) ->
  (forall l b, parse_f64' l = Some b -> Forall (fun c => c < 128)%N l) -> other_digit' 65279%N = false ->
  parse_text_at recover' other_digit' parse_f64' s = inl d ->
  forall hook str_enum one_of ord converted, some_order ord -> converted_errors S hook str_enum one_of ord d = Some converted ->
  Forall (fun er => notes_of er <> []) converted /\
  exists gs, into_graphql_errors search offset_line s converted = Some gs /\
    Forall2 (fun (a : note) g => ge_message g = fst a /\
      exists p m q n, s = p ++ m ++ q /\ tokens_of recover' other_digit' parse_f64' m (node_tokens n) /\ In n (document_nodes d) /\ fst (snd a) = fst (node_span n) /\
        place further s (length p) = (ge_line g, ge_col g)) (flat_map notes_of converted) gs.
Proof.
  intros search offset_line further so dor rc od pf rc' od' pf' st s S d Hs Ht HS Hf Hd HQ hook se oo ord cv Ho HC.
  destruct (c73_told _ _ _ _ _ rc' od' pf' _ s S d HS HQ hook se oo ord Ho) as (errors & cv' & _ & E & F). rewrite HC in E. injection E as <-.
  split. { clear - F HS. induction F as [|x y l l' H _ IH]; constructor; [|exact IH]. exact (told_noted S d hook se oo (read_schema_inputs _ _ _ _ _ _ _ HS) x y H). }
  assert (M : Forall (fun a : note => exists n, In n (document_nodes d) /\ fst (snd a) = fst (node_span n)) (flat_map notes_of cv)).
  { clear - F. induction F as [|x y l l' H _ IH]; [constructor|]. cbn [flat_map]. apply Forall_app. split; [|exact IH].
    assert (A : Forall (fun a : note => of_parts (document_nodes d) (snd a)) (notes_of y)).
    { pose proof (told_marks S d hook se oo x y H) as K. unfold annotations in K. unfold notes_of, LocationSpec.reported. destruct (er_primary y) as [a|]; [inversion_clear K; constructor; [assumption|constructor]|exact K]. }
    eapply Forall_impl; [|exact A]. cbn beta. intros a [(n & Hn & ->)|(u & v & (n & Hn & ->) & (m & Hm & ->) & ->)]; [eauto|]. unfold merge. cbn [fst]. destruct (Nat.min_spec (fst (node_span n)) (fst (node_span m))) as [(_ & ->)|(_ & ->)]; eauto. }
  assert (K : forall n, In n (document_nodes d) -> exists p m q, s = p ++ m ++ q /\ fst (node_span n) = bytes p /\ m <> [] /\ tokens_of rc' od' pf' m (node_tokens n)).
  { intros n Hn. destruct (c63_part_text _ _ _ _ _ Hf Hd HQ n Hn) as (p & m & q & E1 & E2 & E3 & E4). exists p, m, q. rewrite E2. auto. }
  destruct (c62_located search offset_line further s cv Hs Ht) as (gs & E & F2).
  - eapply Forall_impl; [|exact M]. intros a (n & Hn & E). destruct (K n Hn) as (p & m & q & E1 & E2 & E3 & _). exists (length p). split.
    + rewrite E. exists p, (m ++ q). auto.
    + left. rewrite E1, !app_length. destruct m; [congruence|]. cbn. lia.
  - exists gs. split; [exact E|]. clear E. revert M. induction F2 as [|a g l gs' Ha _ IH]; intros M; constructor.
    + inversion_clear M as [|? ? (n & Hn & En) _]. destruct (K n Hn) as (p & m & q & E1 & E2 & _ & E4). destruct Ha as (Hm & i & Hi & Hp). split; [exact Hm|].
      exists p, m, q, n. do 4 (split; [assumption|]). rewrite <- Hp. f_equal. rewrite En in Hi. refine (starts_char_inj s _ _ _ _ Hi). exists p, (m ++ q). auto.
    + apply IH. inversion_clear M. assumption.
Qed.

(** * Cases *)
Definition back (t : text) : string := List.fold_right (fun c s => String (Ascii.ascii_of_N c) s) EmptyString t.
(** the message, and the labels with the texts they are on (texts of one-byte characters) *)
Definition shown (s : string) (er : err) : string * list (string * string) := (back (er_message er), map (fun a : note => (back (fst a), back (text_of (tx s) (snd a)))) (annotations er)).
Definition told_of (schema_text query : string) : option (list (string * list (string * string))) :=
  match read_at (tx query) with
  | inl d => option_map (map (shown query)) (converted_errors (schema_in schema_text) any_value false true in_order d)
  | inr _ => None
  end.
Definition told_schema : string := "type Query { f(x: Int!, y: Int): Int g(i: I): T } type T { t: Int } input I @oneOf { a: Int b: Int } type Subscription { p: Int q: Int }".
Lemma told_schema_read : read_schema_with all_builtins all_builtin_directives (fun _ => 1) (fun _ => false) no_floats (tx told_schema) = inl (inl (schema_in told_schema)).
Proof. apply read_schema_in. vm_compute. reflexivity. Qed.
Example c73_case :
  told_of told_schema "query Q($v: T, $w: String) { a: f(y: $w) f(z: 1) g(i: { a: null b: 1 }) { t { u } ...F } h } fragment F on T { t(k: 1) @no }" = Some
    [("Field `h` does not exist on type `Query`", [("Field does not exist on type `Query`", "h")]);
     ("Fields in selection set do not merge due to unequal arguments", [("Fields in selection set do not merge", "{ t { u } ...F }"); ("First field", "t"); ("Second field", "t")]);
     ("Selection on field of leaf type `Int` was not empty", [("Selection set on field of leaf type must be empty", "{ u }")]);
     ("Field `f` does not define an argument named `z`", [("No argument definition with this name", "z")]);
     ("Field `t` does not define an argument named `k`", [("No argument definition with this name", "k")]);
     ("Field `a` missing argument(s): x", [("Missing argument(s): x", "f(y: $w)")]);
     ("Field `f` missing argument(s): x", [("Missing argument(s): x", "f(z: 1)")]);
     ("Multiple entries with null values for oneOf input object I", [("oneOf input object must not contain any null values", "{ a: null b: 1 }"); ("Entry with null value", "a: null")]);
     ("No directive definition with name `@no`", [("No directive definition with this name", "no")]);
     ("Type of variable $v, T, is not an input type", [("Not an input type", "T")]);
     ("Variable definition $v not used", [("Variable definition not used", "$v")]);
     ("Variable $w of type String cannot be used here, where Int is expected", [("Cannot use variable of type String where Int is expected", "$w")])].
Proof. vm_compute. reflexivity. Qed.
Example c73_case_names :
  told_of told_schema "query A { x: f(x: ""1"") x: __typename } query A { ...G ...H } mutation { m } fragment K on Query { ...K } fragment F on Query { f(x: 1) } fragment F on No { n } fragment H on Int { i }" = Some
    [("Multiple operation definitions named `A`", [("Operation definition with name `A`", "A"); ("Operation definition with name `A`", "A")]);
     ("Anonymous operation not lone operation in document", [("Anonymous operation definition", "{ m }")]);
     ("Fields in selection set do not merge due to incompatible types",
       [("Fields in selection set do not merge", "{ x: f(x: ""1"") x: __typename }"); ("First field has type Int", "f"); ("Second field has type String!", "__typename")]);
     ("Fields in selection set do not merge due to unequal field names", [("Fields in selection set do not merge", "{ x: f(x: ""1"") x: __typename }"); ("First field", "f"); ("Second field", "__typename")]);
     ("Schema does not define a mutation root", [("Schema does not define a mutation root", "mutation")]);
     ("Multiple fragment definitions named `F`", [("Fragment definition with name `F`", "F"); ("Fragment definition with name `F`", "F")]);
     ("No type definition with name `No`", [("No type with this name", "No")]);
     ("`Int` is not a composite type", [("Fragment definition target types must be composite types", "Int")]);
     ("Fragment definition `F` is unused", [("Fragment definition is unused", "F")]);
     ("No fragment defined with name `G`", [("No fragment defined with this name", "G")]);
     ("Cycle detected in fragment `K`", [("Cycle introduced by fragment spread", "K"); ("Affected fragment definition", "K")]);
     ("No implicit conversion of string to Int!", [("No implicit conversion to Int!", """1""")])].
Proof. vm_compute. reflexivity. Qed.

(** * Messages that do not say what is wrong *)
(** One entry with null is reported as several. *)
Theorem c73_multiple_nulls_refuted : exists query,
  told_of told_schema query = Some [("Multiple entries with null values for oneOf input object I",
    [("oneOf input object must not contain any null values", "{ a: null b: 1 }"); ("Entry with null value", "a: null")])].
Proof. exists "{ g(i: { a: null b: 1 }) { t } }". vm_compute. reflexivity. Qed.
(** A selection set with one selection, a fragment spread, is marked as one of multiple fields. *)
Theorem c73_multiple_fields_refuted : exists query,
  told_of told_schema query = Some [("Subscription root is not a single field", [("Selection set contains multiple fields", "{ ...F }")])].
Proof. exists "subscription S { ...F } fragment F on Subscription { p q }". vm_compute. reflexivity. Qed.
(** A field that lacks arguments is called by its alias, although no type has a field of this name. *)
Theorem c73_field_name_refuted : exists query,
  told_of told_schema query = Some [("Field `nope` missing argument(s): x", [("Missing argument(s): x", "f")])] /\
  Forall (fun t => get_field (td_fields t) (tx "nope") = None) (s_types (schema_in told_schema)).
Proof. exists "{ nope: f }". split; [vm_compute; reflexivity|]. vm_compute. repeat constructor. Qed.
Print Assumptions c73_told. Print Assumptions c73_same_document. Print Assumptions c73_marked. Print Assumptions c73_located.
Print Assumptions c73_multiple_nulls_refuted. Print Assumptions c73_multiple_fields_refuted. Print Assumptions c73_field_name_refuted.
