(** Property C62: error locations. *)
From Coq Require Import String Sorted.
From Verif Require Import Base Lexer LexerSpec LexerStreamProofs LexerProps Location LocationSpec LocationProofs StringSpanProofs.
Local Open Scope string_scope.
Local Open Scope list_scope.

(** What is assumed of the library functions: [search] is [binary_search] of sorted sequences ([searches]), and
    [offset_line] is [Source::get_offset_line] of the crate ariadne: line and column of any character, counted from zero.
    [further]: the characters besides line feed and carriage return that ariadne takes for line ends. Nothing is assumed of
    it at the end of a text that ends with a line end. *)
Definition tells_places (further : N -> bool) (offset_line : text -> nat -> option (nat * nat)) : Prop :=
  forall s i, i < length s \/ i = length s /\ (forall before c, s = before ++ [c] -> ends_line further c = false) ->
  exists l c, offset_line s i = Some (l, c) /\ place further s i = (S l, S c).

Section Errors.
  Variable search : list nat -> nat -> nat + nat.
  Variable offset_line : text -> nat -> option (nat * nat).
  Variable doc : text.
  Hypothesis Hs : searches search.
  Lemma report_boundary m (a : annotation) : mapping_ok doc m ->
    (on_boundary doc (fst (snd a)) -> exists g m', report search offset_line doc m a = Some (g, m') /\ mapping_ok doc m') /\
    (forall g m', report search offset_line doc m a = Some (g, m') -> on_boundary doc (fst (snd a))).
  Proof.
    intros M. destruct (to_char_spec search doc Hs m (fst (snd a)) M) as (H1 & H2). unfold report, to_location. split.
    - intros (i & Hi). destruct (H1 i Hi) as (m' & -> & M').
      destruct (match offset_line doc i with Some (l, k) => Some (l + 1, k + 1) | None => None end) as [[l c]|]; eauto.
    - intros g m'. destruct (to_char search doc m (fst (snd a))) as [[i m1]|] eqn:E; [|discriminate]. intros _. exists i. eauto.
  Qed.
  Lemma report_located further m (a : annotation) g m' : mapping_ok doc m -> tells_places further offset_line ->
    placeable further doc (fst (snd a)) -> report search offset_line doc m a = Some (g, m') ->
    located further doc a (ge_message g) (ge_line g) (ge_col g).
  Proof.
    intros M T (i & Hi & P). unfold report, to_location. destruct (to_char_spec search doc Hs m (fst (snd a)) M) as (H1 & _).
    destruct (H1 i Hi) as (m1 & -> & _).
    assert (Q : i < length doc \/ i = length doc /\ forall before c, doc = before ++ [c] -> ends_line further c = false).
    { destruct P as [P|P]; [auto|]. destruct Hi as (p & r & E & _ & L). destruct (Nat.eq_dec i (length doc)); [auto|].
      left. rewrite E, app_length in *. lia. }
    destruct (T doc i Q) as (l & c & -> & Pl). intros [= <- <-]. split; [reflexivity|]. exists i. split; [exact Hi|].
    cbn. rewrite Pl, !Nat.add_1_r. reflexivity.
  Qed.
  Lemma report_all_spec l : forall m, mapping_ok doc m ->
    (Forall (fun a => on_boundary doc (fst (snd a))) l -> exists gs m', report_all search offset_line doc m l = Some (gs, m') /\ mapping_ok doc m') /\
    (forall gs m', report_all search offset_line doc m l = Some (gs, m') -> Forall (fun a => on_boundary doc (fst (snd a))) l) /\
    (forall further gs m', tells_places further offset_line -> Forall (fun a => placeable further doc (fst (snd a))) l ->
       report_all search offset_line doc m l = Some (gs, m') ->
       Forall2 (fun a g => located further doc a (ge_message g) (ge_line g) (ge_col g)) l gs).
  Proof.
    induction l as [|a l IH]; intros m M; cbn [report_all].
    - split; [eauto|]. split; [constructor|]. intros further gs m' _ _ [= <- <-]. constructor.
    - destruct (report_boundary m a M) as (H1 & H2). split; [|split].
      + intros F. inversion_clear F as [|? ? Fa Fl]. destruct (H1 Fa) as (g & m1 & -> & M1).
        destruct (IH m1 M1) as (K1 & _). destruct (K1 Fl) as (gs & m2 & -> & M2). eauto.
      + intros gs m'. destruct (report search offset_line doc m a) as [[g m1]|] eqn:E; [|discriminate].
        pose proof (H2 _ _ eq_refl) as B. destruct (H1 B) as (g' & m1' & E' & M1). injection E' as <- <-.
        destruct (report_all search offset_line doc m1 l) as [[gs' m2]|] eqn:E2; [|discriminate]. intros _. constructor; [exact B|].
        destruct (IH m1 M1) as (_ & K2 & _). eauto.
      + intros further gs m' T F. inversion_clear F as [|? ? Fa Fl].
        destruct (report search offset_line doc m a) as [[g m1]|] eqn:E; [|discriminate].
        pose proof (H2 _ _ eq_refl) as B. destruct (H1 B) as (g' & m1' & E' & M1). injection E' as <- <-.
        destruct (report_all search offset_line doc m1 l) as [[gs' m2]|] eqn:E2; [|discriminate]. intros [= <- <-].
        constructor; [exact (report_located further m a g m1 M T Fa E)|]. destruct (IH m1 M1) as (_ & _ & K3). exact (K3 _ _ _ T Fl E2).
  Qed.
  Lemma report_all_app l1 l2 : forall m, report_all search offset_line doc m (l1 ++ l2) =
    match report_all search offset_line doc m l1 with
    | Some (g1, m1) => match report_all search offset_line doc m1 l2 with Some (g2, m2) => Some (g1 ++ g2, m2) | None => None end
    | None => None
    end.
  Proof.
    induction l1 as [|a l1 IH]; intros m; cbn [app report_all].
    - destruct (report_all search offset_line doc m l2) as [[g2 m2]|]; reflexivity.
    - destruct (report search offset_line doc m a) as [[g m1]|]; [|reflexivity]. rewrite IH.
      destruct (report_all search offset_line doc m1 l1) as [[g1 m2]|]; [|reflexivity].
      destruct (report_all search offset_line doc m2 l2) as [[g2 m3]|]; reflexivity.
  Qed.
  Lemma errors_from_flat es : forall m, errors_from search offset_line doc m es =
    option_map fst (report_all search offset_line doc m (flat_map looked_at es)).
  Proof.
    induction es as [|e es IH]; intros m; cbn [errors_from flat_map]; [reflexivity|]. rewrite report_all_app.
    destruct (report_all search offset_line doc m (looked_at e)) as [[g m1]|]; [|reflexivity]. rewrite IH.
    destruct (report_all search offset_line doc m1 (flat_map looked_at es)) as [[g2 m2]|]; reflexivity.
  Qed.
End Errors.

(** what an error is reported at *)
Definition notes_of (e : err) : list note := reported (er_primary e) (er_secondary e).

(** The conversion gives every error its own line and column, in order, however many errors were converted before. *)
Theorem c62_located : forall search offset_line further doc es,
  searches search -> tells_places further offset_line ->
  Forall (fun a => placeable further doc (fst (snd a))) (flat_map notes_of es) ->
  exists gs, into_graphql_errors search offset_line doc es = Some gs /\
    Forall2 (fun a g => located further doc a (ge_message g) (ge_line g) (ge_col g)) (flat_map notes_of es) gs.
Proof.
  intros search offset_line further doc es Hs T F. unfold into_graphql_errors. rewrite errors_from_flat. change (flat_map looked_at es) with (flat_map notes_of es).
  destruct (report_all_spec search offset_line doc Hs (flat_map notes_of es) new_mapping (new_mapping_ok doc)) as (H1 & _ & H3).
  destruct H1 as (gs & m' & E & _).
  { eapply Forall_impl; [|exact F]. intros a (i & Hi & _). now exists i. }
  exists gs. rewrite E. split; [reflexivity|]. eauto.
Qed.
(** it panics exactly if some error is not at the beginning of a character of this document (or its end) *)
Theorem c62_panics_iff : forall search offset_line doc es, searches search ->
  (exists gs, into_graphql_errors search offset_line doc es = Some gs) <->
  Forall (fun a => on_boundary doc (fst (snd a))) (flat_map notes_of es).
Proof.
  intros search offset_line doc es Hs. unfold into_graphql_errors. rewrite errors_from_flat. change (flat_map looked_at es) with (flat_map notes_of es).
  destruct (report_all_spec search offset_line doc Hs (flat_map notes_of es) new_mapping (new_mapping_ok doc)) as (H1 & H2 & _). split.
  - intros (gs & E). destruct (report_all _ _ _ _ _) as [[gs' m']|]; [|discriminate]. eauto.
  - intros F. destruct (H1 F) as (gs & m' & -> & _). eexists. reflexivity.
Qed.
(** the place of an error does not depend on the errors before it: converting two lists together or apart is the same *)
Theorem c62_history : forall search offset_line doc es1 es2, searches search ->
  into_graphql_errors search offset_line doc (es1 ++ es2) =
  match into_graphql_errors search offset_line doc es1, into_graphql_errors search offset_line doc es2 with
  | Some g1, Some g2 => Some (g1 ++ g2)
  | _, _ => None
  end.
Proof.
  intros search offset_line doc es1 es2 Hs. unfold into_graphql_errors. rewrite !errors_from_flat, flat_map_app, report_all_app.
  pose proof (new_mapping_ok doc) as M0.
  destruct (report_all_spec search offset_line doc Hs (flat_map looked_at es1) new_mapping M0) as (A1 & A2 & _).
  destruct (report_all search offset_line doc new_mapping (flat_map looked_at es1)) as [[g1 m1]|] eqn:E1; [|reflexivity].
  destruct (A1 (A2 _ _ eq_refl)) as (g1' & m1' & [= <- <-] & M1). cbn [option_map fst]. clear A1 A2.
  (* any two good mappings give the same reports *)
  assert (X : forall l m m', mapping_ok doc m -> mapping_ok doc m' ->
    option_map fst (report_all search offset_line doc m l) = option_map fst (report_all search offset_line doc m' l)).
  { clear - Hs. intros l. induction l as [|a l IH]; intros m m' M M'; [reflexivity|]. cbn [report_all].
    unfold report, to_location. destruct (to_char_spec search doc Hs m (fst (snd a)) M) as (H1 & H2).
    destruct (to_char_spec search doc Hs m' (fst (snd a)) M') as (H1' & H2').
    destruct (to_char search doc m (fst (snd a))) as [[i m1]|] eqn:E.
    - pose proof (H2 _ _ eq_refl) as S. destruct (H1 i S) as (n1 & [= <-] & N1). destruct (H1' i S) as (n1' & -> & N1').
      specialize (IH m1 n1' N1 N1').
      destruct (match match offset_line doc i with Some (l0, k) => Some (l0 + 1, k + 1) | None => None end with Some x => x | None => (0, 0) end) as [l0 c0].
      destruct (report_all search offset_line doc m1 l) as [[gs x]|], (report_all search offset_line doc n1' l) as [[gs' x']|]; cbn in *; congruence.
    - destruct (to_char search doc m' (fst (snd a))) as [[i m1]|] eqn:E'; [|reflexivity]. pose proof (H2' _ _ eq_refl) as S.
      destruct (H1 i S) as (n1 & K & _). discriminate K. }
  specialize (X (flat_map looked_at es2) m1 new_mapping M1 M0).
  destruct (report_all search offset_line doc m1 (flat_map looked_at es2)) as [[g2 m2]|],
           (report_all search offset_line doc new_mapping (flat_map looked_at es2)) as [[g2' m2']|]; cbn in *; congruence.
Qed.

(** The spans that the lexer gives to tokens and errors, and all that are merged from them, can be located. *)
Inductive merged (l : list span) : span -> Prop :=
| merged_one sp : In sp l -> merged l sp
| merged_two a b : merged l a -> merged l b -> merged l (merge a b).
Lemma tiles_starts ok further doc : forall items pos before s, tiles ok pos s items -> doc = before ++ s -> bytes before = pos ->
  Forall (fun i : item => exists k, starts_char doc (fst (snd i)) k /\ k < length doc) items /\
  Forall (fun i : item => placeable further doc (fst (snd i))) items.
Proof.
  intros items pos before s T. revert before. induction T as [pos w H|pos w l s r items Hw Hl Ho T IH]; intros before E B; [split; constructor|].
  destruct (IH (before ++ w ++ l)) as (H1 & H2).
  { rewrite E, <- !app_assoc. reflexivity. }
  { rewrite !bytes_app. lia. }
  assert (K : exists k, starts_char doc (pos + bytes w) k /\ k < length doc).
  { exists (length (before ++ w)). split.
    - exists (before ++ w), (l ++ s). rewrite <- app_assoc, bytes_app. split; [exact E|]. split; [lia|reflexivity].
    - rewrite E, !app_length. destruct l; [congruence|]. cbn. lia. }
  split; constructor; auto. cbn. destruct K as (k & K1 & K2). exists k. auto.
Qed.
Lemma tiles_items ok pos s items : tiles ok pos s items -> Forall (fun i : item => exists l, ok (fst i) l) items.
Proof. induction 1; constructor; auto. exists l. assumption. Qed.
Lemma lexed_placeable recover other_digit parse_f64 compat further s :
  (forall l b, parse_f64 l = Some b -> Forall (fun c => c < 128)%N l) ->
  Forall (fun i : item => placeable further s (fst (snd i))) (lex recover other_digit parse_f64 compat s).
Proof.
  intros Hf. refine (proj2 (tiles_starts _ further s _ 0 [] s (c04_spans_tile recover other_digit parse_f64 compat s Hf) eq_refl eq_refl)).
Qed.
Theorem c62_token_spans : forall recover other_digit parse_f64 compat further s sp,
  (forall l b, parse_f64 l = Some b -> Forall (fun c => c < 128)%N l) ->
  merged (map snd (lex recover other_digit parse_f64 compat s)) sp -> placeable further s (fst sp).
Proof.
  intros recover other_digit parse_f64 compat further s sp Hf H. pose proof (lexed_placeable recover other_digit parse_f64 compat further s Hf) as F.
  induction H as [sp H|a b Ha IHa Hb IHb].
  - apply in_map_iff in H. destruct H as (i & <- & Hi). exact (proj1 (Forall_forall _ _) F _ Hi).
  - cbn. destruct (Nat.min_spec (fst a) (fst b)) as [(_ & ->)|(_ & ->)]; assumption.
Qed.
(** Lexing errors: one GraphQL error each, in order, at the line and column where the offending text begins. *)
Theorem c62_lexing_errors : forall search offset_line further recover other_digit parse_f64 compat s,
  searches search -> tells_places further offset_line -> (forall l b, parse_f64 l = Some b -> Forall (fun c => c < 128)%N l) ->
  let failures := filter (fun i : item => match fst i with inl _ => false | inr _ => true end) (lex recover other_digit parse_f64 compat s) in
  exists gs, into_graphql_errors search offset_line s (lexing_errors (lex recover other_digit parse_f64 compat s)) = Some gs /\
    Forall2 (fun (i : item) g => exists k, starts_char s (fst (snd i)) k /\ place further s k = (ge_line g, ge_col g)) failures gs.
Proof.
  intros search offset_line further recover other_digit parse_f64 compat s Hs T Hf failures.
  pose proof (lexed_placeable recover other_digit parse_f64 compat further s Hf) as F.
  assert (NF : Forall (fun i : item => fst i <> inr OutOfFuel) (lex recover other_digit parse_f64 compat s)).
  { eapply Forall_impl; [|exact (tiles_items _ _ _ _ (c04_spans_tile recover other_digit parse_f64 compat s Hf))]. cbn. intros i (l & H & _). exact H. }
  assert (E : map (fun a : note => fst (snd a)) (flat_map notes_of (lexing_errors (lex recover other_digit parse_f64 compat s))) = map (fun i : item => fst (snd i)) failures).
  { subst failures. induction NF as [|[[t|e] sp] items Hi _ IH]; [reflexivity| |]; inversion_clear F as [|? ? _ F']; specialize (IH F').
    - exact IH.
    - cbn [lexing_errors flat_map filter fst snd map]. rewrite flat_map_app, map_app. cbn [flat_map].
      unfold lexing_errors in IH. rewrite IH. destruct e; try reflexivity. cbn in Hi. congruence. }
  destruct (c62_located search offset_line further s (lexing_errors (lex recover other_digit parse_f64 compat s)) Hs T) as (gs & G & L).
  { apply (Forall_map (fun a : note => fst (snd a)) (placeable further s)). rewrite E. apply Forall_map. subst failures. apply Forall_forall. intros i Hi.
    apply filter_In in Hi. exact (proj1 (Forall_forall _ _) F _ (proj1 Hi)). }
  exists gs. split; [exact G|]. clear - L E.
  revert E. generalize failures. clear failures. induction L as [|a g l gs (H1 & H2) L IH]; intros [|i fs] E; try discriminate; constructor.
  - cbn in E. injection E as E _. rewrite <- E. exact H2.
  - apply IH. cbn in E. now injection E.
Qed.
(** The messages about single characters of a string literal mark non-empty parts of that literal, on character boundaries. *)
Theorem c62_string_errors : forall recover other_digit parse_f64 compat s es a b e,
  In (inr (StringValueInvalid es), (a, b)) (lex recover other_digit parse_f64 compat s) -> In e es ->
  let '(x, y) := snd (string_error_annotation e) in on_boundary s x /\ on_boundary s y /\ a <= x /\ x < y /\ y <= b.
Proof.
  intros recover other_digit parse_f64 compat s es a b e Hi He.
  pose proof (lex_items_spans recover other_digit parse_f64 compat s (length s) 0 s [] eq_refl eq_refl) as F.
  pose proof (proj1 (Forall_forall _ _) F _ Hi es eq_refl) as G. cbn in G. pose proof (proj1 (Forall_forall _ _) G _ He) as P.
  destruct e; exact P.
Qed.

(** The error for a string that is not valid is about the whole string, and marks each of the places in it, saying what is wrong there. *)
Theorem c62_string_errors_marked : forall recover other_digit parse_f64 compat s es a b,
  In (inr (StringValueInvalid es), (a, b)) (lex recover other_digit parse_f64 compat s) ->
  exists er, In er (lexing_errors (lex recover other_digit parse_f64 compat s)) /\ er_primary er = Some (tx "String value invalid", (a, b)) /\
    Forall2 (fun e (n : note) =>
      n = match e with InvalidUnicodeEscape x y => (tx "Invalid unicode escape sequence", (x, y)) | InvalidCharacters x y => (tx "Invalid characters", (x, y)) end /\
      on_boundary s (fst (snd n)) /\ on_boundary s (snd (snd n)) /\ a <= fst (snd n) /\ fst (snd n) < snd (snd n) /\ snd (snd n) <= b) es (er_secondary er).
Proof.
  intros recover other_digit parse_f64 compat s es a b Hi. exists (lex_error_error (StringValueInvalid es) (a, b)). split; [|split; [reflexivity|]].
  - unfold lexing_errors. apply in_flat_map. eexists. split; [exact Hi|]. left. reflexivity.
  - cbn [lex_error_error er_secondary]. pose proof (fun e => c62_string_errors recover other_digit parse_f64 compat s es a b e Hi) as P. clear Hi.
    induction es as [|e es IH]; cbn [map]; constructor; [|apply IH; intros e' He'; apply P; right; exact He'].
    specialize (P e (or_introl eq_refl)). destruct e; cbn in *; tauto.
Qed.

(** ** The assumptions can be met *)
(** a search from the left and the places of the specification itself *)
Fixpoint search_from (i : nat) (l : list nat) (x : nat) : nat + nat :=
  match l with
  | [] => inr i
  | y :: l' => if Nat.eqb y x then inl i else if Nat.ltb x y then inr i else search_from (S i) l' x
  end.
Lemma search_from_spec l x : StronglySorted lt l -> forall i, 
  match search_from i l x with
  | inl k => i <= k /\ nth_error l (k - i) = Some x
  | inr k => i <= k /\ k - i <= length l /\ Forall (fun y => y < x) (firstn (k - i) l) /\ Forall (fun y => x < y) (skipn (k - i) l)
  end.
Proof.
  induction 1 as [|y l S IH F]; intros i; cbn [search_from].
  - rewrite Nat.sub_diag. repeat split; try constructor.
  - destruct (Nat.eqb_spec y x) as [->|N]; [rewrite Nat.sub_diag; auto|]. destruct (Nat.ltb_spec x y) as [L|L].
    + rewrite Nat.sub_diag. cbn. repeat split; try constructor; try lia. eapply Forall_impl; [|exact F]. cbn. lia.
    + specialize (IH (Datatypes.S i)). destruct (search_from (Datatypes.S i) l x) as [k|k].
      * destruct IH as (H1 & H2). replace (k - i) with (Datatypes.S (k - Datatypes.S i)) by lia. split; [lia|exact H2].
      * destruct IH as (H1 & H2 & H3 & H4). replace (k - i) with (Datatypes.S (k - Datatypes.S i)) by lia. cbn. repeat split; try lia; auto. constructor; [lia|exact H3].
Qed.
Lemma search_ok : searches (search_from 0).
Proof.
  intros l x S. pose proof (search_from_spec l x S 0) as H. destruct (search_from 0 l x) as [k|k]; rewrite Nat.sub_0_r in H; tauto.
Qed.
Definition ideal_lines (further : N -> bool) (s : text) (i : nat) : option (nat * nat) :=
  let '(l, c) := place further s i in Some (Nat.pred l, Nat.pred c).
Lemma place_pos further s : forall i l c l' c', place_from further s i l c = (l', c') -> 0 < l -> 0 < c -> 0 < l' /\ 0 < c'.
Proof.
  induction s as [|x s IH]; intros [|i] l c l' c' H Hl Hc; cbn in H; try (injection H as <- <-; auto).
  destruct (_ && _); [eapply IH; [exact H|lia|lia]|]. destruct (ends_line further x); (eapply IH; [exact H|lia|lia]).
Qed.
Lemma ideal_ok further : tells_places further (ideal_lines further).
Proof.
  intros s i _. unfold ideal_lines. destruct (place further s i) as [l c] eqn:E. destruct (place_pos further s i 1 1 l c E ltac:(lia) ltac:(lia)).
  exists (Nat.pred l), (Nat.pred c). split; [reflexivity|]. f_equal; lia.
Qed.
(** a flame and a comment before the first error, a carriage return with a line feed before the second, the later error first *)
Definition ex_doc : text := tx "{a#" ++ [128293; 10]%N ++ tx "  ~ " ++ [13; 10]%N ++ [128293]%N ++ tx " 99999999999}".
Example ex_places : let lexed := lex (fun _ => 1) (fun _ => false) (fun _ => None) false ex_doc in
  map snd (filter (fun i : item => match fst i with inl _ => false | inr _ => true end) lexed) = [(10, 11); (14, 18); (19, 30)] /\
  option_map (map (fun g => (ge_line g, ge_col g))) (into_graphql_errors (search_from 0) (ideal_lines no_further) ex_doc (rev (lexing_errors lexed))) =
  Some [(3, 3); (3, 1); (2, 3)].
Proof. split; vm_compute; reflexivity. Qed.
(** inside a character: a panic *)
Example ex_inside : into_graphql_errors (search_from 0) (ideal_lines no_further) ex_doc
  [{| er_message := []; er_primary := Some ([], (5, 6)); er_secondary := [] |}] = None.
Proof. vm_compute. reflexivity. Qed.
(** errors inside string literals *)
Example ex_string_errors : exists es, In (inr (StringValueInvalid es), (2, 18)) (lex (fun _ => 1) (fun _ => false) (fun _ => None) false (tx "a """ ++ [10; 128293]%N ++ tx "\uD800b\x""")) /\
  map (fun e => snd (string_error_annotation e)) es = [(3, 4); (8, 14); (15, 16)].
Proof. eexists. split; [vm_compute; right; left; reflexivity|reflexivity]. Qed.

Print Assumptions c62_located. Print Assumptions c62_panics_iff. Print Assumptions c62_history. Print Assumptions c62_token_spans.
Print Assumptions c62_lexing_errors. Print Assumptions c62_string_errors. Print Assumptions c62_string_errors_marked.
