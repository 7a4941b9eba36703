(** Property C75: what the macro [typegen] says about valid queries that it does not support. *)
From Coq Require Import String Lia.
From Verif Require Import Base Ast Graph Lexer LexerSpec LexerProps Parser ParserSpec Location LocationSpec LocationProofs LocationProps DefParser DefParserProps Resolve ResolveProps ParserAt ParserAtSpec SpanProps Doc DocRules Merging MergingSpec MergingProps MergingCases
  Validator ValidatorProofs ValidatorProps ValidatorCases EndToEndProofs Typegen TypegenSpec TypegenMacro TypegenInputCases CoercionAt ValidatorAt ValidatorAtSpec ValidatorAtProofs ValidatorMarkProofs ValidatorErrorProps TypegenAt TypegenAtSpec TypegenAtProofs.
Local Open Scope string_scope.
Local Open Scope list_scope.

(** the converted errors of a document *)
Definition unsupported_errors (S : schema) (d : ldocument) : list err := flat_map typegen_error (typegen_errors_at d (visit_at S d)).

Lemma accepted_rules S hook se oo ord d : validate S hook se oo ord d = Some [] ->
  leaf_selection_errors S (visit S d) = [] /\ fragment_name_errors (visit S d) = [] /\ spread_target_errors d (visit S d) = [].
Proof.
  intros H. apply validate_silent in H as (_ & [S0 S1 S2 S3 S4 S5 S6 S7 S8 S9 S10 S11 S12 S13 S14 S15 S16 S17 S18 S19 S20 S21 S22 S23 S24 S25]). auto.
Qed.
(** Of a valid document, exactly what is not supported is reported: each such thing by an error that says what it is and marks it. *)
Theorem c75_unsupported : forall S d hook str_enum one_of ord, validate S hook str_enum one_of ord (plain_document d) = Some [] ->
  forall er, In er (unsupported_errors S d) <-> unsupported S d er.
Proof. intros S d hook se oo ord H er. destruct (accepted_rules _ _ _ _ _ _ H) as (L & U & T). exact (errors_iff S d L U er). Qed.
(** The macro stops at a valid query with something that is not supported, and returns as many errors as are converted; it does not
    stop with such errors at any other valid query. *)
Theorem c75_returned : forall recover other_digit parse_f64 hook str_enum one_of ord S borrow scalar_borrows i s d,
  parse_text_at recover other_digit parse_f64 s = inl d -> validate S hook str_enum one_of ord (plain_document d) = Some [] ->
  match query_types recover other_digit parse_f64 hook str_enum one_of ord S borrow scalar_borrows i s with
  | inr (Some (MQueryUnsupported j es)) => j = i /\ unsupported_errors S d <> [] /\ length es = length (unsupported_errors S d)
  | _ => unsupported_errors S d = []
  end.
Proof.
  intros rc od pf hook se oo ord S borrow sb i s d HQ HV. destruct (accepted_rules _ _ _ _ _ _ HV) as (L & U & T).
  pose proof (c73_same_document rc od pf s d HQ) as P. unfold query_types. rewrite P, HV.
  pose proof (typegen_errors_same S d) as E. pose proof (never_panics S d L U T) as N. unfold unsupported_errors.
  assert (Ln : forall l, ~ In LTPanic l -> length (map plain_tgerr l) = length (flat_map typegen_error l)).
  { intros l. induction l as [|e l IH]; [reflexivity|]. intros K. cbn [map flat_map length]. rewrite app_length, <- IH by (intros Hin; apply K; right; exact Hin).
    destruct e; try reflexivity. exfalso. apply K. left. reflexivity. }
  specialize (Ln _ N). rewrite E in Ln.
  assert (X : existsb (fun e => match e with TPanic => true | _ => false end) (typegen_errors (plain_document d) (visit S (plain_document d))) = false).
  { rewrite <- E. apply not_true_is_false. intros X. apply existsb_exists in X as (e & He & X). apply in_map_iff in He as (le & <- & He). destruct le; try discriminate. tauto. }
  rewrite X. destruct (typegen_errors (plain_document d) (visit S (plain_document d))) as [|e es].
  - destruct (convert S borrow sb (plain_document d)); destruct (flat_map typegen_error _); try reflexivity; discriminate.
  - split; [reflexivity|]. split; [|exact Ln]. intros F. rewrite F in Ln. discriminate.
Qed.
(** Every mark is on one part of the query text: from its first byte to its last one. *)
Theorem c75_marked : forall recover other_digit parse_f64 S s d hook str_enum one_of ord,
  (forall l b, parse_f64 l = Some b -> Forall (fun c => c < 128)%N l) -> other_digit 65279%N = false ->
  parse_text_at recover other_digit parse_f64 s = inl d -> validate S hook str_enum one_of ord (plain_document d) = Some [] ->
  forall er a, In er (unsupported_errors S d) -> In a (annotations er) ->
  exists n p m q, In n (document_nodes d) /\ s = p ++ m ++ q /\ snd a = (bytes p, bytes (p ++ m)) /\ m <> [] /\ tokens_of recover other_digit parse_f64 m (node_tokens n).
Proof.
  intros rc od pf S s d hook se oo ord Hf Hd HQ HV er a He Ha. apply (c75_unsupported S d hook se oo ord HV) in He. pose proof (unsupported_marks S d er He) as M.
  destruct (proj1 (Forall_forall _ _) M a Ha) as (n & Hn & E). destruct (c63_part_text rc od pf s d Hf Hd HQ n Hn) as (p & m & q & E1 & E2 & E3 & E4). exists n, p, m, q. rewrite E. auto.
Qed.
(** As GraphQL errors there is one for each of them, with the label of its primary mark, at the line and column where a part of the
    document begins. *)
Theorem c75_located : forall search offset_line further recover other_digit parse_f64 S s d hook str_enum one_of ord,
  searches search -> tells_places further offset_line ->
  (forall l b, parse_f64 l = Some b -> Forall (fun c => c < 128)%N l) -> other_digit 65279%N = false ->
  parse_text_at recover other_digit parse_f64 s = inl d -> validate S hook str_enum one_of ord (plain_document d) = Some [] ->
  exists gs, into_graphql_errors search offset_line s (unsupported_errors S d) = Some gs /\
    Forall2 (fun er g => exists label sp p m q n, er_primary er = Some (label, sp) /\ ge_message g = label /\ s = p ++ m ++ q /\ In n (document_nodes d) /\
      sp = (bytes p, bytes (p ++ m)) /\ tokens_of recover other_digit parse_f64 m (node_tokens n) /\ place further s (length p) = (ge_line g, ge_col g)) (unsupported_errors S d) gs.
Proof.
  intros search offset_line further rc od pf S s d hook se oo ord Hs Ht Hf Hd HQ HV.
  assert (Pr : forall er, In er (unsupported_errors S d) -> exists a, er_primary er = Some a /\ notes_of er = [a] /\ In a (annotations er)).
  { intros er He. apply in_flat_map in He as (e & _ & He). destruct e; try destruct He as [<-|[]]; try destruct He; eexists; (split; [reflexivity|split; [reflexivity|left; reflexivity]]). }
  pose proof (c75_marked rc od pf S s d hook se oo ord Hf Hd HQ HV) as K.
  destruct (c62_located search offset_line further s (unsupported_errors S d) Hs Ht) as (gs & E & F2).
  - apply Forall_forall. intros a Ha. apply in_flat_map in Ha as (er & He & Ha). destruct (Pr er He) as (a' & _ & En & Hin). rewrite En in Ha. destruct Ha as [->|[]].
    destruct (K er a He Hin) as (n & p & m & q & _ & E1 & E2 & E3 & _). exists (length p). split.
    + rewrite E2. exists p, (m ++ q). auto.
    + left. rewrite E1, !app_length. destruct m; [congruence|]. cbn. lia.
  - exists gs. split; [exact E|]. clear E. revert gs F2. induction (unsupported_errors S d) as [|er l IH]; intros gs F2; cbn [flat_map] in F2.
    + inversion F2. constructor.
    + destruct (Pr er (or_introl eq_refl)) as (a & Ea & En & Hin). rewrite En in F2. cbn [app] in F2. inversion_clear F2 as [|? g ? gs' Hg F2']. constructor.
      * destruct Hg as (Hm & j & Hj & Hp). destruct (K er a (or_introl eq_refl) Hin) as (n & p & m & q & Hn & E1 & E2 & E3 & E4). exists (fst a), (snd a), p, m, q, n.
        split; [rewrite Ea; destruct a; reflexivity|]. do 5 (split; [assumption|]). rewrite <- Hp. f_equal. rewrite E2 in Hj. cbn [fst] in Hj. refine (starts_char_inj s _ _ _ _ Hj). exists p, (m ++ q). auto.
      * apply IH; [intros x Hx; apply Pr; right; exact Hx|intros x y Hx; apply K; right; exact Hx|exact F2'].
Qed.

(** * Cases *)
Definition unsupported_of (schema_text query : string) : option (list (string * list (string * string))) :=
  match read_at (tx query) with
  | inl d => match validate (schema_in schema_text) any_value false true in_order (plain_document d) with
             | Some [] => Some (map (shown query) (unsupported_errors (schema_in schema_text) d))
             | _ => None
             end
  | inr _ => None
  end.
Definition kinds_schema : string := "interface N { i: Int } interface M implements N { i: Int } type A implements N & M { i: Int } type B implements N & M { i: Int } union U = A | B type Query { a: A n: N m: M u: U }".
Example c75_case :
  unsupported_of kinds_schema "query Q { a { ...F i ...G } n { ... on M { i } ... { i } } u { j: __typename ... on A { i } __typename ... on A { i } ... on N { i } ... { __typename } ... on B { i } } m { ...G } } fragment F on A { ... on A { i } } fragment G on A { i } fragment Q on N { i } query R { n { ...G } m { ...Q } u { ...K } v: u { ...K __typename } } fragment K on U { __typename }" = Some
    [("bluejay_typegen requires a fragment spread to be the only selection in the set", [("Selection set contains a fragment spread and other selections", "{ ...F i ...G }"); ("Fragment spread", "...F")]);
     ("bluejay_typegen does not allow inline fragments on interfaces", [("Inline fragment on interface type", "... on M { i }")]);
     ("bluejay_typegen does not allow inline fragments on interfaces", [("Inline fragment on interface type", "... { i }")]);
     ("bluejay_typegen requires unaliased selection of `__typename` on union types to properly deserialize, and for that to be the first in the selection set", [("Selection set does not contain an unaliased `__typename` selection as the first selection", "{ j: __typename ... on A { i } __typename ... on A { i } ... on N { i } ... { __typename } ... on B { i } }")]);
     ("bluejay_typegen does not allow field selections directly on union types, with the exception of unaliased `__typename` as the first selection in the set", [("Field selection on union type", "__typename")]);
     ("bluejay_typegen does not allow field selections directly on union types, with the exception of unaliased `__typename` as the first selection in the set", [("Field selection on union type", "__typename")]);
     ("bluejay_typegen requires inline fragments on union to target a union member type", [("N is not a member type of U", "... on N { i }")]);
     ("bluejay_typegen requires inline fragments on union to target a union member type", [("U is not a member type of U", "... { __typename }")]);
     ("bluejay_typegen requires the inline fragments in a selection set have unique type conditions", [("Selection set contains multiple inline fragments targeting A", "{ j: __typename ... on A { i } __typename ... on A { i } ... on N { i } ... { __typename } ... on B { i } }"); ("Inline fragment targeting A", "... on A { i }"); ("Inline fragment targeting A", "... on A { i }")]);
     ("bluejay_typegen requires fragment spreads on interfaces to target either the interface or one of the interfaces it implements", [("Fragment spread on interface type", "...G")]);
     ("bluejay_typegen requires fragment spreads on interfaces to target either the interface or one of the interfaces it implements", [("Fragment spread on interface type", "...G")]);
     ("bluejay_typegen requires a fragment spread to be the only selection in the set", [("Selection set contains a fragment spread and other selections", "{ ...K __typename }"); ("Fragment spread", "...K")]);
     ("bluejay_typegen requires unaliased selection of `__typename` on union types to properly deserialize, and for that to be the first in the selection set", [("Selection set does not contain an unaliased `__typename` selection as the first selection", "{ ...K __typename }")]);
     ("bluejay_typegen does not allow field selections directly on union types, with the exception of unaliased `__typename` as the first selection in the set", [("Field selection on union type", "__typename")]);
     ("bluejay_typegen does not allow inline fragments on objects", [("Inline fragment on object type", "... on A { i }")]);
     ("bluejay_typegen requires fragment and operation names to be unique, but encountered a clash with name `Q`", [("Fragment definition name collides with operation definition name", "fragment Q on N { i }"); ("Operation definition", "query Q { a { ...F i ...G } n { ... on M { i } ... { i } } u { j: __typename ... on A { i } __typename ... on A { i } ... on N { i } ... { __typename } ... on B { i } } m { ...G } }")])].
Proof. vm_compute. reflexivity. Qed.
Example c75_case_root :
  unsupported_of kinds_schema "{ n { ...Root } } fragment Root on N { i }" = Some
    [("bluejay_typegen requires fragment and operation names to be unique, but encountered a clash with name `Root`",
      [("Fragment definition name collides with operation definition name", "fragment Root on N { i }"); ("Operation definition", "{ n { ...Root } }")])] /\
  unsupported_of kinds_schema "{ a { ...F } m { ...G } u { __typename ... on A { i } ... on B { i } } v: u { ...H } } fragment F on A { i } fragment G on N { i } fragment H on U { __typename }" = Some [].
Proof. vm_compute. split; reflexivity. Qed.

Print Assumptions c75_unsupported.
Print Assumptions c75_returned.
Print Assumptions c75_marked.
Print Assumptions c75_located.
