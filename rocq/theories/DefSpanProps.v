(** Property C71: the positions of the parts of a schema document. *)
From Coq Require Import String Sorted Lia.
From Verif Require Import Base Ast Lexer LexerSpec LexerProofs LexerStreamProofs LexerProps Parser Location LocationSpec LocationProofs LocationProps DefParser DefParserSpec
  ParserAt DefParserAt ParserSpec ParserAtSpec DefParserAtSpec ParserProps SpanProofs SpanProps DefParserErrorProps DefSpanSpec DefSpanProofs.
Local Open Scope string_scope.
Local Open Scope list_scope.

(** The tokens of an accepted text are those of its definitions, one after another, and the positions in the definitions are where
    their parts stand: each name, description, value, directive, type, list in brackets, directive location and root operation
    is read from its own tokens and has their range. *)
Theorem c71_grammar : forall recover other_digit parse_f64 s d,
  (forall l b, parse_f64 l = Some b -> Forall (fun c => c < 128)%N l) ->
  parse_schema_text_at recover other_digit parse_f64 s = inl d ->
  lexing_errors (lex recover other_digit parse_f64 false s) = [] /\ each sysdef_piece d (items_at (lex recover other_digit parse_f64 false s)).
Proof. intros recover other_digit parse_f64 s d Hf H. exact (document_yields _ _ _ (items_ordered _ _ _ _ Hf) H). Qed.
(** The range of every part is where its text stands: cut out of the document, the text of the range lexes, by itself, to exactly
    the tokens of the part. *)
Theorem c71_part_text : forall recover other_digit parse_f64 s d,
  (forall l b, parse_f64 l = Some b -> Forall (fun c => c < 128)%N l) -> other_digit 65279%N = false ->
  parse_schema_text_at recover other_digit parse_f64 s = inl d ->
  forall x, In x (flat_map sysdef_parts d) ->
  exists p m q, s = p ++ m ++ q /\ snd x = (bytes p, bytes (p ++ m)) /\ m <> [] /\ tokens_of recover other_digit parse_f64 m (fst x).
Proof.
  intros recover other_digit parse_f64 s d Hf Hd H x Hx. destruct (c71_grammar _ _ _ _ _ Hf H) as (L & W). apply document_placed in W.
  pose proof (proj1 (Forall_forall _ _) W x Hx) as Wx. pose proof (lexs_placed recover other_digit parse_f64 Hf (length s) s (le_n _) 0 L) as P.
  destruct (part_slice recover other_digit parse_f64 Hd _ _ _ P Wx) as (p & m & q & E1 & E2 & E3). exists p, m, q. do 2 (split; [assumption|]). split; [|exact E3].
  intros ->. destruct Wx as (b & mine & a & _ & Em & (y & z & b' & a' & -> & _)). rewrite <- Em in E3. discriminate E3.
Qed.
(** Errors about parts of the document become GraphQL errors at the line and column where the text of the part begins. *)
Theorem c71_located : forall search offset_line further recover other_digit parse_f64 s d,
  searches search -> tells_places further offset_line ->
  (forall l b, parse_f64 l = Some b -> Forall (fun c => c < 128)%N l) -> other_digit 65279%N = false ->
  parse_schema_text_at recover other_digit parse_f64 s = inl d ->
  forall es, Forall (fun a : note => exists x, In x (flat_map sysdef_parts d) /\ snd a = snd x) (flat_map notes_of es) ->
  exists gs, into_graphql_errors search offset_line s es = Some gs /\
    Forall2 (fun (a : note) g => ge_message g = fst a /\
      exists p m q x, s = p ++ m ++ q /\ tokens_of recover other_digit parse_f64 m (fst x) /\ In x (flat_map sysdef_parts d) /\ snd a = snd x /\
        place further s (length p) = (ge_line g, ge_col g)) (flat_map notes_of es) gs.
Proof.
  intros search offset_line further recover other_digit parse_f64 s d Hs T Hf Hd H es F.
  assert (K : forall x, In x (flat_map sysdef_parts d) -> exists p m q, s = p ++ m ++ q /\ fst (snd x) = bytes p /\ m <> [] /\ tokens_of recover other_digit parse_f64 m (fst x)).
  { intros x Hx. destruct (c71_part_text _ _ _ _ _ Hf Hd H x Hx) as (p & m & q & E1 & E2 & E3 & E4). exists p, m, q. rewrite E2. auto. }
  destruct (c62_located search offset_line further s es Hs T) as (gs & E & F2).
  - eapply Forall_impl; [|exact F]. intros a (x & Hx & ->). destruct (K x Hx) as (p & m & q & E1 & E2 & E3 & _). exists (length p). split.
    + exists p, (m ++ q). auto.
    + left. rewrite E1, !app_length. destruct m; [congruence|]. cbn. lia.
  - exists gs. split; [exact E|]. clear E. revert F. induction F2 as [|a g l gs' Ha _ IH]; intros F; constructor.
    + inversion_clear F as [|? ? (x & Hx & En) _]. destruct (K x Hx) as (p & m & q & E1 & E2 & _ & E4). destruct Ha as (Hm & i & Hi & Hp). split; [exact Hm|].
      exists p, m, q, x. do 4 (split; [assumption|]). rewrite <- Hp. f_equal. rewrite En in Hi. refine (starts_char_inj s _ _ _ _ Hi). exists p, (m ++ q). auto.
    + apply IH. inversion_clear F. assumption.
Qed.
(** Of types the claim is false: the range of a list that is not null leaves out the bang, while that of a name that is not null has it. *)
Definition first_field_type (d : list lsysdef) : option ltype :=
  match d with LTypeDef (LDObject _ _ _ _ (f :: _, _)) :: _ => Some (lfd_type f) | _ => None end.
Theorem c71_list_range_refuted : exists s d t p m q, read_schema_at s = inl d /\ first_field_type d = Some t /\
  s = p ++ m ++ q /\ type_span t = (bytes p, bytes (p ++ m)) /\
  plain_type t = TList (TBase (tx "Int") true) true /\ tokens_of (fun _ => 1) (fun _ => false) no_floats m (tk_tref (TList (TBase (tx "Int") true) false)).
Proof.
  exists (tx "type Query { a: [Int!]! }"). eexists _, _. exists (tx "type Query { a: "), (tx "[Int!]"), (tx "! }"). split; [vm_compute; reflexivity|]. split; [reflexivity|]. repeat split.
Qed.
(** Cases: the texts of the parts. *)
Definition part_texts (s : text) : option (list text) :=
  match read_schema_at s with inl d => Some (map (fun x => text_of s (snd x)) (flat_map sysdef_parts d)) | inr _ => None end.
Example c71_cases :
  part_texts (tx "schema @a(b: 1) { query: Q }") = Some (map tx ["schema"; "@a(b: 1)"; "@a(b: 1)"; "a"; "(b: 1)"; "b: 1"; "b"; "1"; "{ query: Q }"; "Q"]) /\
  part_texts (tx """d"" type T implements & I & J @a @b { f(x: [Int!]! = [1] @c): T! }") =
    Some (map tx ["""d"""; "T"; "I"; "J"; "@a @b"; "@a"; "a"; "@b"; "b"; "{ f(x: [Int!]! = [1] @c): T! }"; "f"; "(x: [Int!]! = [1] @c)"; "x"; "[Int!]"; "Int!"; "Int"; "[1]"; "1"; "@c"; "@c"; "c"; "T!"; "T"]) /\
  part_texts (tx "union U @a = | A | B enum E { ""x"" X @a Y }") = Some (map tx ["U"; "@a"; "@a"; "a"; "A"; "B"; "E"; "{ ""x"" X @a Y }"; """x"""; "X"; "@a"; "@a"; "a"; "Y"]) /\
  part_texts (tx "directive @d(x: Int) repeatable on FIELD | ENUM scalar S input I { x: S } interface N { a: S }") =
    Some (map tx ["d"; "(x: Int)"; "x"; "Int"; "Int"; "FIELD"; "ENUM"; "S"; "I"; "{ x: S }"; "x"; "S"; "S"; "N"; "{ a: S }"; "a"; "S"; "S"]).
Proof. repeat split; vm_compute; reflexivity. Qed.
Print Assumptions c71_grammar. Print Assumptions c71_part_text. Print Assumptions c71_located. Print Assumptions c71_list_range_refuted.
