(** Property C63: the positions of the parts of a parsed document. *)
From Coq Require Import String Sorted.
From Verif Require Import Base Ast Lexer LexerSpec LexerProps Parser Location LocationSpec LocationProofs LocationProps ParserAt ParserSpec ParserAtSpec ParserProps
  ParserAtProofs SpanProofs.
Local Open Scope string_scope.
Local Open Scope list_scope.

(** The parser with positions accepts the texts that the parser of [Parser.v] accepts, and forgetting the positions gives the same
    document: what is proved of one (C02, C03, C10, C11 and the validation of documents) holds of the other. *)
Theorem c63_same_documents : forall recover other_digit parse_f64 s,
  match parse_text_at recover other_digit parse_f64 s with
  | inl d => parse_text recover other_digit parse_f64 s = inl (plain_document d)
  | inr _ => exists es, parse_text recover other_digit parse_f64 s = inr es
  end.
Proof. intros recover other_digit parse_f64 s. exact (forget_document _ _). Qed.

Lemma items_ordered recover other_digit parse_f64 s : (forall l b, parse_f64 l = Some b -> Forall (fun c => c < 128)%N l) ->
  ordered (items_at (lex recover other_digit parse_f64 false s)).
Proof.
  intros Hf. destruct (c04_spans_ordered recover other_digit parse_f64 false s Hf) as (H1 & H2). induction (lex recover other_digit parse_f64 false s) as [|i items IH].
  - split; constructor.
  - inversion_clear H1 as [|? ? S F]. inversion_clear H2 as [|? ? A B]. destruct (IH S B) as (O1 & O2).
    destruct i as [[t|e] sp]; [|exact (IH S B)]. split; constructor; auto.
    + apply Forall_forall. intros x Hx. unfold items_at in Hx. apply in_flat_map in Hx. destruct Hx as (j & Hj & Hx). pose proof (proj1 (Forall_forall _ _) F j Hj) as K.
      destruct j as [[t'|e'] sp']; [|destruct Hx]. destruct Hx as [<-|[]]. exact K.
    + apply A.
Qed.
(** The range of every part is where its text stands: cut out of the document, the text of the range lexes, by itself, to exactly
    the tokens of the part. *)
Theorem c63_part_text : forall recover other_digit parse_f64 s d,
  (forall l b, parse_f64 l = Some b -> Forall (fun c => c < 128)%N l) -> other_digit 65279%N = false ->
  parse_text_at recover other_digit parse_f64 s = inl d ->
  forall n, In n (document_nodes d) ->
  exists p m q, s = p ++ m ++ q /\ node_span n = (bytes p, bytes (p ++ m)) /\ m <> [] /\ tokens_of recover other_digit parse_f64 m (node_tokens n).
Proof.
  intros recover other_digit parse_f64 s d Hf Hd H n Hn. unfold parse_text_at in H. apply document_reads in H; [|apply items_ordered; exact Hf].
  destruct H as (L & (W & _)). pose proof (proj1 (Forall_forall _ _) W n Hn) as Wn.
  pose proof (lexs_placed recover other_digit parse_f64 Hf (length s) s (le_n _) 0 L) as P.
  destruct (placed_slice recover other_digit parse_f64 Hd _ _ _ P Wn) as (p & m & q & E1 & E2 & E3). exists p, m, q. do 2 (split; [assumption|]). split; [|exact E3].
  intros ->. destruct Wn as (b & mine & a & _ & Em & (x & y & b' & a' & -> & _)). rewrite <- Em in E3. discriminate E3.
Qed.
(** Those tokens stand together in the document, and the range goes from the beginning of the first to the end of the last. *)
Theorem c63_part_tokens : forall recover other_digit parse_f64 s d,
  (forall l b, parse_f64 l = Some b -> Forall (fun c => c < 128)%N l) ->
  parse_text_at recover other_digit parse_f64 s = inl d ->
  lexing_errors (lex recover other_digit parse_f64 false s) = [] /\
  Forall (well_placed (items_at (lex recover other_digit parse_f64 false s))) (document_nodes d).
Proof.
  intros recover other_digit parse_f64 s d Hf H. apply document_reads in H; [|apply items_ordered; exact Hf]. split; apply H.
Qed.
(** Positions as identities: two parts of the same kind, one after the other in the document, begin at different places, the first
    before the second. (The range of a selection set, of a field, of a type, of an operation and of a fragment is what the library
    identifies it by, and ranges are ordered by their beginnings.) *)
Theorem c63_identity : forall recover other_digit parse_f64 s d,
  (forall l b, parse_f64 l = Some b -> Forall (fun c => c < 128)%N l) ->
  parse_text_at recover other_digit parse_f64 s = inl d ->
  forall i j a b, i < j -> nth_error (document_nodes d) i = Some a -> nth_error (document_nodes d) j = Some b -> kind_of a = kind_of b ->
  fst (node_span a) < fst (node_span b).
Proof.
  intros recover other_digit parse_f64 s d Hf H. apply document_reads in H; [|apply items_ordered; exact Hf]. destruct H as (_ & _ & K).
  intros i j a b Hij Ha Hb Hk. specialize (K (kind_of a)). destruct K as (K & _). revert i j Hij Ha Hb K.
  induction (document_nodes d) as [|n ns IH]; intros i j Hij Ha Hb K; [destruct i; discriminate|].
  destruct j as [|j]; [lia|]. cbn in Hb. unfold starts in K. cbn [filter] in K. destruct i as [|i].
  - injection Ha as ->. rewrite Nat.eqb_refl in K. inversion_clear K as [|? ? _ F]. rewrite Forall_forall in F. apply F.
    apply in_map_iff. exists b. split; [reflexivity|]. apply filter_In. split; [exact (nth_error_In _ _ Hb)|]. rewrite Hk. apply Nat.eqb_refl.
  - cbn in Ha. apply IH with (i := i) (j := j); auto; [lia|]. destruct (Nat.eqb (kind_of n) (kind_of a)); [|exact K]. inversion_clear K. assumption.
Qed.
(** In particular nothing is lost by comparing ranges instead of parts. *)
Corollary c63_same_range_same_part : forall recover other_digit parse_f64 s d,
  (forall l b, parse_f64 l = Some b -> Forall (fun c => c < 128)%N l) ->
  parse_text_at recover other_digit parse_f64 s = inl d ->
  forall i j a b, nth_error (document_nodes d) i = Some a -> nth_error (document_nodes d) j = Some b -> kind_of a = kind_of b ->
  node_span a = node_span b -> i = j /\ a = b.
Proof.
  intros recover other_digit parse_f64 s d Hf H i j a b Ha Hb Hk E.
  destruct (Nat.lt_trichotomy i j) as [L|[->|L]].
  - pose proof (c63_identity _ _ _ _ _ Hf H i j a b L Ha Hb Hk). rewrite E in *. lia.
  - split; congruence.
  - symmetry in Hk. pose proof (c63_identity _ _ _ _ _ Hf H j i b a L Hb Ha Hk). rewrite E in *. lia.
Qed.
(** Errors about parts of the document, as the validator and its rules report them, become GraphQL errors at the line and column
    where the text of the part begins. *)
Theorem c63_located : forall search offset_line further recover other_digit parse_f64 s d,
  searches search -> tells_places further offset_line ->
  (forall l b, parse_f64 l = Some b -> Forall (fun c => c < 128)%N l) -> other_digit 65279%N = false ->
  parse_text_at recover other_digit parse_f64 s = inl d ->
  forall es, Forall (fun a : note => exists n, In n (document_nodes d) /\ snd a = node_span n) (flat_map notes_of es) ->
  exists gs, into_graphql_errors search offset_line s es = Some gs /\
    Forall2 (fun (a : note) g => ge_message g = fst a /\
      exists p m q n, s = p ++ m ++ q /\ tokens_of recover other_digit parse_f64 m (node_tokens n) /\ In n (document_nodes d) /\ snd a = node_span n /\
        place further s (length p) = (ge_line g, ge_col g)) (flat_map notes_of es) gs.
Proof.
  intros search offset_line further recover other_digit parse_f64 s d Hs T Hf Hd H es F.
  assert (K : forall n, In n (document_nodes d) -> exists p m q, s = p ++ m ++ q /\ fst (node_span n) = bytes p /\ m <> [] /\ tokens_of recover other_digit parse_f64 m (node_tokens n)).
  { intros n Hn. destruct (c63_part_text _ _ _ _ _ Hf Hd H n Hn) as (p & m & q & E1 & E2 & E3 & E4). exists p, m, q. rewrite E2. auto. }
  destruct (c62_located search offset_line further s es Hs T) as (gs & E & F2).
  - eapply Forall_impl; [|exact F]. intros a (n & Hn & ->). destruct (K n Hn) as (p & m & q & E1 & E2 & E3 & _). exists (length p). split.
    + exists p, (m ++ q). auto.
    + left. rewrite E1, !app_length. destruct m; [congruence|]. cbn. lia.
  - exists gs. split; [exact E|]. clear E. revert F. induction F2 as [|a g l gs' Ha _ IH]; intros F; constructor.
    + inversion_clear F as [|? ? (n & Hn & En) _]. destruct (K n Hn) as (p & m & q & E1 & E2 & _ & E4). destruct Ha as (Hm & i & Hi & Hp). split; [exact Hm|].
      exists p, m, q, n. do 4 (split; [assumption|]). rewrite <- Hp. f_equal. rewrite En in Hi. refine (starts_char_inj s _ _ _ _ Hi). exists p, (m ++ q). auto.
    + apply IH. inversion_clear F. assumption.
Qed.
(** Cases. *)
Notation read_at := (parse_text_at (fun _ => 1) (fun _ => false) no_floats).
Definition text_of (s : text) (sp : span) : text :=
  firstn (snd sp - fst sp) (skipn (fst sp) s).  (* for texts of one-byte characters *)
Definition texts_of_kind (k : nat) (s : text) : list text :=
  match read_at s with
  | inl d => map (fun n => text_of s (node_span n)) (filter (fun n => Nat.eqb (kind_of n) k) (document_nodes d))
  | inr _ => []
  end.
Definition sample : text := tx "query Q($a: [Int!]! = [1, 2] @d) @e { x: f(a: $a, b: { c: E }) @g(h: """") { ...F @i ... on T @j { k } } } fragment F on T { l { m } }".
Example c63_case_kinds :
  map (fun k => texts_of_kind k sample) (seq 0 14) =
  [ map tx ["Q"; "Int"; "d"; "e"; "x"; "f"; "a"; "b"; "c"; "g"; "h"; "F"; "i"; "T"; "j"; "k"; "F"; "T"; "l"; "m"];
    [tx "$a"];
    map tx ["[1, 2]"; "1"; "2"; "$a"; "{ c: E }"; "E"; """"""];
    map tx ["a: $a"; "b: { c: E }"; "h: """""];
    map tx ["(a: $a, b: { c: E })"; "(h: """")"];
    map tx ["@d"; "@e"; "@g(h: """")"; "@i"; "@j"];
    map tx ["@d"; "@e"; "@g(h: """")"; "@i"; "@j"];
    map tx ["[Int!]!"; "Int!"];
    [tx "($a: [Int!]! = [1, 2] @d)"];
    map tx ["x: f(a: $a, b: { c: E }) @g(h: """") { ...F @i ... on T @j { k } }"; "...F"; "... on T @j { k }"; "k"; "l { m }"; "m"];
    map tx ["{ x: f(a: $a, b: { c: E }) @g(h: """") { ...F @i ... on T @j { k } } }"; "{ ...F @i ... on T @j { k } }"; "{ k }"; "{ l { m } }"; "{ m }"];
    [tx "query"];
    [tx "query Q($a: [Int!]! = [1, 2] @d) @e { x: f(a: $a, b: { c: E }) @g(h: """") { ...F @i ... on T @j { k } } }"];
    [tx "fragment F on T { l { m } }"] ].
Proof. vm_compute. reflexivity. Qed.
(** Without positions the two selection sets [{ k }] are equal; their ranges tell them apart. *)
Example c63_case_identity :
  exists d a b, read_at (tx "{ f { k } g { k } }") = inl d /\
    nth_error (document_nodes d) 4 = Some (NSet a) /\ nth_error (document_nodes d) 9 = Some (NSet b) /\
    plain_set a = plain_set b /\ snd a <> snd b.
Proof. eexists _, _, _. split; [vm_compute; reflexivity|]. cbn. split; [reflexivity|]. split; [reflexivity|]. split; [reflexivity|]. discriminate. Qed.
(** One-byte characters do not matter: a comment of two-byte characters and a line end before the field [f]. *)
Example c63_case_bytes :
  exists d, read_at (tx "{ #" ++ [233; 233; 10]%N ++ tx "f }") = inl d /\
    map node_span (filter (fun n => Nat.eqb (kind_of n) 9) (document_nodes d)) = [(8, 9)].
Proof. eexists. split; vm_compute; reflexivity. Qed.
(** The range of a fragment spread leaves out its directives: of a selection as a whole the claim is false. *)
Theorem c63_spread_range_refuted : exists s d n ds sp,
  read_at s = inl d /\ In (NSelection (LSpread n (Some ds) sp)) (document_nodes d) /\ snd sp < fst (snd (ld_name (hd {| ld_name := n; ld_args := None; ld_span := sp |} (fst ds)))).
Proof.
  exists (tx "{ ...F @include(if: true) }"). eexists _, _, _, _. split; [vm_compute; reflexivity|]. split; [right; right; left; reflexivity|]. cbn. lia.
Qed.
Print Assumptions c63_same_documents. Print Assumptions c63_part_text. Print Assumptions c63_part_tokens. Print Assumptions c63_identity.
Print Assumptions c63_same_range_same_part. Print Assumptions c63_located. Print Assumptions c63_spread_range_refuted.
