(** The parser against the grammar, continued: selections, definitions, documents. *)
From Verif Require Import Base Ast Lexer Parser ParserSpec ParserProofs.
From Coq Require Import Lia.

(** ** Selections *)
Ltac flat := repeat (progress cbn [app] || rewrite <- app_assoc).
Lemma parse_set_with_sound item : sound item tk_selection selection_ok -> sound (parse_set_with item) tk_set set_ok.
Proof.
  intros S ts l r H. unfold parse_set_with in H. bi H u r1 E1. apply expect_punct_inv in E1.
  apply (many1_sound _ _ _ _ S) in H. destruct H as (-> & O & NE). subst ts. unfold tk_set, set_ok. cbn [app]. rewrite <- app_assoc, O.
  destruct l; [congruence|]. auto.
Qed.
Lemma parse_condition_inv ts c r : parse_condition ts = POk c r -> ts = TkName (tx "on") :: TkName c :: r.
Proof. intros H. unfold parse_condition in H. bi H u r1 E1. apply expect_name_value_inv in E1. apply expect_name_inv in H. now subst. Qed.
Lemma parse_selection_sound fuel : sound (parse_selection fuel) tk_selection selection_ok.
Proof.
  induction fuel as [|fuel IH]; intros ts s r H; [discriminate|]. cbn [parse_selection] in H.
  pose proof (parse_set_with_sound _ IH) as SS.
  destruct ts as [|t ts]; [discriminate|]. destruct t as [p|n|n|z|b|s']; try discriminate.
  - destruct p; try discriminate.
    destruct (match ts with TkName n :: _ => negb (teqb n (tx "on")) | _ => false end) eqn:C.
    + bi H n r1 E1. apply expect_name_inv in E1. subst ts. apply negb_true_iff in C. rewrite C in H.
      bi H ds r2 E2. injection H as <- <-. apply parse_directives_sound in E2. destruct E2 as (-> & O). cbn [tk_selection selection_ok app]. rewrite C, O. auto.
    + bi H c r1 E1. bi H ds r2 E2. bi H sub r3 E3. injection H as <- <-.
      apply parse_directives_sound in E2. destruct E2 as (-> & O). apply SS in E3. destruct E3 as (-> & O3). unfold set_ok in O3.
      cbn [selection_ok]. rewrite O. split; [|exact O3].
      assert (K : ts = (match c with Some t => [TkName (tx "on"); TkName t] | None => [] end) ++ tk_directives ds ++ tk_set sub ++ r3).
      { destruct (peek_name_matches (tx "on") ts).
        - bi E1 c' r4 E4. injection E1 as <- E1. apply parse_condition_inv in E4. rewrite E4, E1. reflexivity.
        - injection E1 as <- E1. exact E1. }
      rewrite K. cbn [tk_selection]. unfold tk_set. destruct c; flat; reflexivity.
  - bi H p r1 E1. bi H args r2 E2. bi H ds r3 E3. bi H sub r4 E4. injection H as <- <-.
    apply parse_arguments_sound in E2. destruct E2 as (-> & O2). apply parse_directives_sound in E3. destruct E3 as (-> & O3).
    assert (K1 : TkName n :: ts = (match fst p with Some a => [TkName a; P PColon] | None => [] end) ++ TkName (snd p) :: tk_arguments args ++ tk_directives ds ++ r3).
    { destruct (peek_punct PColon ts).
      - bi E1 al q1 F1. bi E1 u q2 F2. bi E1 m q3 F3. injection E1 as <- E1. apply expect_name_inv in F1. apply expect_punct_inv in F2. apply expect_name_inv in F3.
        cbn [fst snd app]. congruence.
      - bi E1 m q1 F1. injection E1 as <- E1. apply expect_name_inv in F1. cbn [fst snd app]. congruence. }
    assert (K2 : r3 = (match sub with [] => [] | _ => P POpenBrace :: concat (map tk_selection sub) ++ [P PCloseBrace] end) ++ r4 /\ forallb selection_ok sub = true).
    { destruct (peek_punct POpenBrace r3).
      - apply SS in E4. destruct E4 as (-> & O). unfold set_ok in O. apply andb_prop in O. destruct O as (NE & O). destruct sub; [discriminate|]. auto.
      - injection E4 as <- <-. auto. }
    destruct K2 as (K2 & O4). rewrite K1, K2. cbn [tk_selection selection_ok]. rewrite O2, O3, O4. split; [|reflexivity].
    destruct (fst p); flat; reflexivity.
Qed.

(** what may follow a selection *)
Definition set_follow (r : list token) : Prop := plain_after [PColon; POpenRound; PAt; POpenBrace] r.
Lemma set_follow_close r : set_follow (P PCloseBrace :: r).
Proof. repeat constructor. Qed.
Lemma tk_selection_head s : exists t l, tk_selection s = t :: l /\ ((exists n, t = TkName n) \/ t = P PEllipse).
Proof.
  destruct s as [al n args ds sub|n ds|c ds sub]; cbn [tk_selection]; [destruct al|..]; cbn [app]; eexists; eexists; (split; [reflexivity|]); eauto.
Qed.
Lemma set_follow_selection s r : set_follow (tk_selection s ++ r) /\ next_if_punct PCloseBrace (tk_selection s ++ r) = None.
Proof.
  destruct (tk_selection_head s) as (t & l & -> & [(n & ->)| ->]); cbn [app]; split; try reflexivity; repeat constructor.
Qed.
Lemma parse_set_with_complete item sub r : set_ok sub = true ->
  (forall s r', In s sub -> set_follow r' -> item (tk_selection s ++ r') = POk s r') -> parse_set_with item (tk_set sub ++ r) = POk sub r.
Proof.
  intros O C. unfold set_ok in O. apply andb_prop in O. destruct O as (NE & O). unfold parse_set_with, tk_set. cbn [app]. rewrite <- app_assoc. rewrite expect_punct_ok. cbn [bind app].
  apply (many1_complete _ _ set_follow); [apply set_follow_close | destruct sub; [discriminate|congruence] | exact C | |].
  - intros. apply set_follow_selection.
  - rewrite app_length. assert (length sub <= length (concat (map tk_selection sub))); [|lia].
    apply concat_length_all. intros x _. destruct (tk_selection_head x) as (t & l & -> & _). congruence.
Qed.
Lemma peek_optional_set p sub r : p <> POpenBrace -> peek_punct p r = false ->
  peek_punct p ((match sub with [] => [] | _ => P POpenBrace :: concat (map tk_selection sub) ++ [P PCloseBrace] end) ++ r) = false.
Proof. intros N F. destruct sub; [exact F|]. cbn. destruct p; try reflexivity. congruence. Qed.
Lemma peek_arguments p args r : p <> POpenRound -> peek_punct p r = false -> peek_punct p (tk_arguments args ++ r) = false.
Proof. intros N F. destruct args as [|d ds]; [exact F|]. cbn. destruct p; try reflexivity. congruence. Qed.

Lemma parse_selection_complete s : forall fuel r, selection_ok s = true -> length (tk_selection s) <= fuel -> set_follow r ->
  parse_selection fuel (tk_selection s ++ r) = POk s r.
Proof.
  induction s as [al n args ds sub IH|n ds|c ds sub IH] using selection_ind'; intros fuel r O L F;
    inversion_clear F as [|? ? N1 F']; inversion_clear F' as [|? ? N2 F'']; inversion_clear F'' as [|? ? N3 F3]; inversion_clear F3 as [|? ? N4 _].
  - destruct fuel as [|fuel]; [exfalso; revert L; destruct al; cbn; lia|].
    cbn [selection_ok] in O. apply andb_prop in O. destruct O as (O & O3). apply andb_prop in O. destruct O as (O1 & O2).
    set (set := match sub with [] => [] | _ => P POpenBrace :: concat (map tk_selection sub) ++ [P PCloseBrace] end).
    assert (E : tk_selection (SField al n args ds sub) ++ r =
      (match al with Some a => [TkName a; P PColon] | None => [] end) ++ TkName n :: tk_arguments args ++ tk_directives ds ++ set ++ r).
    { cbn [tk_selection]. fold set. destruct al; flat; reflexivity. }
    assert (LS : length set <= fuel).
    { cbn [tk_selection] in L. fold set in L. revert L. destruct al; cbn [app length]; rewrite !app_length; lia. }
    rewrite E. clear E L.
    set (rest := tk_arguments args ++ tk_directives ds ++ set ++ r).
    assert (C : peek_punct PColon rest = false).
    { apply peek_arguments; [discriminate|]. apply peek_directives; [discriminate|]. apply peek_optional_set; [discriminate|easy]. }
    assert (H : forall p : option name * name, bind (parse_arguments false rest) (fun args r2 => bind (parse_directives false r2) (fun ds r3 =>
        bind (if peek_punct POpenBrace r3 then parse_set_with (parse_selection fuel) r3 else POk [] r3) (fun sub r4 => POk (SField (fst p) (snd p) args ds sub) r4)))
      = POk (SField (fst p) (snd p) args ds sub) r).
    { intros p. unfold rest. rewrite parse_arguments_complete; [|exact O1|].
      2:{ apply peek_directives; [discriminate|]. apply peek_optional_set; [discriminate|easy]. }
      cbn [bind]. rewrite parse_directives_complete; [|exact O2|apply peek_optional_set; [discriminate|easy]|apply peek_optional_set; [discriminate|easy]].
      cbn [bind]. unfold set in *. destruct sub as [|s0 sub].
      - cbn [app]. now rewrite N4.
      - change ((P POpenBrace :: concat (map tk_selection (s0 :: sub)) ++ [P PCloseBrace]) ++ r) with (tk_set (s0 :: sub) ++ r).
        change (peek_punct POpenBrace (tk_set (s0 :: sub) ++ r)) with true. cbv iota.
        rewrite parse_set_with_complete; [reflexivity | exact O3 |].
        intros s r' I F. rewrite Forall_forall in IH. rewrite forallb_forall in O3. apply IH; [exact I | exact (O3 _ I) | | exact F].
        pose proof (concat_length_in tk_selection s _ I) as K. cbn [length] in LS. rewrite app_length in LS. cbn [map concat] in *. lia. }
    destruct al as [a|]; cbn [app parse_selection].
    + change (peek_punct PColon (P PColon :: TkName n :: rest)) with true. cbv iota. cbn [expect_name bind]. rewrite expect_punct_ok. cbn [bind expect_name].
      exact (H (Some a, n)).
    + rewrite C. cbn [expect_name bind]. exact (H (None, n)).
  - destruct fuel as [|fuel]; [exfalso; revert L; cbn; lia|]. cbn [selection_ok] in O. apply andb_prop in O. destruct O as (O1 & O2).
    apply negb_true_iff in O1. cbn [tk_selection app parse_selection P expect_name bind]. rewrite O1. cbn [negb bind].
    now rewrite parse_directives_complete.
  - destruct fuel as [|fuel]; [exfalso; revert L; cbn; lia|]. cbn [selection_ok] in O. apply andb_prop in O. destruct O as (O & O3). apply andb_prop in O. destruct O as (O1 & O2).
    assert (E : tk_selection (SInline c ds sub) ++ r =
      P PEllipse :: (match c with Some t => [TkName (tx "on"); TkName t] | None => [] end) ++ tk_directives ds ++ tk_set sub ++ r).
    { cbn [tk_selection]. unfold tk_set. destruct c; flat; reflexivity. }
    assert (LS : length (tk_set sub) <= fuel).
    { unfold tk_set. cbn [tk_selection length] in *. rewrite !app_length in *. cbn [length] in *. rewrite !app_length in *. cbn [length] in *. lia. }
    rewrite E. clear E L. unfold P at 1. cbn [parse_selection].
    assert (NN : match tk_directives ds ++ tk_set sub ++ r with TkName n :: _ => negb (teqb n (tx "on")) | _ => false end = false) by (destruct ds; reflexivity).
    assert (NN' : peek_name_matches (tx "on") (tk_directives ds ++ tk_set sub ++ r) = false) by (destruct ds; reflexivity).
    assert (H : forall c' : option name, bind (parse_directives false (tk_directives ds ++ tk_set sub ++ r)) (fun ds r2 =>
        bind (parse_set_with (parse_selection fuel) r2) (fun sub r3 => POk (SInline c' ds sub) r3)) = POk (SInline c' ds sub) r).
    { intros c'. rewrite parse_directives_complete; [|exact O1|reflexivity|reflexivity]. cbn [bind].
      rewrite parse_set_with_complete; [reflexivity | unfold set_ok; now rewrite O2, O3 |].
      intros s r' I F. rewrite Forall_forall in IH. rewrite forallb_forall in O3. apply IH; [exact I | exact (O3 _ I) | | exact F].
      pose proof (concat_length_in tk_selection s _ I) as K. unfold tk_set in LS. cbn [length] in LS. rewrite app_length in LS. lia. }
    destruct c as [t|]; cbn [app].
    + rewrite teqb_refl. cbn [negb]. cbn [peek_name_matches]. rewrite teqb_refl. unfold parse_condition. cbn [expect_name_value]. rewrite teqb_refl. cbn [bind expect_name]. exact (H (Some t)).
    + rewrite NN, NN'. cbn [bind]. exact (H None).
Qed.
Lemma safe_set_with item ts : (forall ts', length ts' < length ts -> safe 1 ts' (item ts')) -> safe 1 ts (parse_set_with item ts).
Proof.
  intros I. unfold parse_set_with. apply (safe_bind 1); [apply safe_expect_punct|]. intros u r _ L. apply (safe_weaken 1); [lia|].
  apply safe_many1; [|lia]. intros. apply I. lia.
Qed.
Lemma safe_condition ts : safe 1 ts (parse_condition ts).
Proof. unfold parse_condition. apply (safe_bind 1); [apply safe_expect_name_value|]. intros u r _ L. apply (safe_weaken 1); [lia|]. apply safe_expect_name. Qed.
Lemma safe_selection fuel : forall ts, length ts < fuel -> safe 1 ts (parse_selection fuel ts).
Proof.
  induction fuel as [|fuel IH]; intros ts L; [lia|]. cbn [parse_selection].
  destruct ts as [|t ts]; [apply safe_unexpected|]. destruct t as [p|n|n|z|b|s']; try apply safe_unexpected.
  - destruct p; try apply safe_unexpected. cbn [length] in L.
    destruct (match ts with TkName n :: _ => negb (teqb n (tx "on")) | _ => false end) eqn:C.
    + destruct ts as [|t ts]; [discriminate|]. destruct t as [p|n|n|z|b|s']; try discriminate. apply negb_true_iff in C.
      cbn [expect_name bind]. rewrite C. apply (safe_bind 1); [|intros; apply safe_ok].
      pose proof (safe_directives false ts) as K. destruct (parse_directives false ts); cbn [safe length] in *; intuition lia.
    + apply (safe_bind 1).
      * destruct (peek_name_matches (tx "on") ts).
        -- apply (safe_bind 1); [|intros; apply safe_ok]. pose proof (safe_condition ts) as K. destruct (parse_condition ts); cbn [safe length] in *; intuition lia.
        -- cbn [safe length]. lia.
      * intros c r1 _ L1. cbn [length] in L1. apply (safe_bind 0); [apply safe_directives|]. intros ds r2 _ L2.
        apply (safe_bind 0); [|intros; apply safe_ok]. apply (safe_weaken 1); [lia|]. apply safe_set_with. intros. apply IH. lia.
  - cbn [length] in L. apply (safe_bind 1).
    + destruct (peek_punct PColon ts).
      * apply (safe_bind 1); [apply safe_expect_name|]. intros al r1 _ L1. apply (safe_bind 0); [apply (safe_weaken 1), safe_expect_punct; lia|].
        intros u r2 _ L2. apply (safe_bind 0); [apply (safe_weaken 1), safe_expect_name; lia|]. intros. apply safe_ok.
      * apply (safe_bind 1); [apply safe_expect_name|]. intros. apply safe_ok.
    + intros p r1 _ L1. cbn [length] in L1. apply (safe_bind 0); [apply safe_arguments|]. intros args r2 _ L2.
      apply (safe_bind 0); [apply safe_directives|]. intros ds r3 _ L3.
      apply (safe_bind 0); [|intros; apply safe_ok]. destruct (peek_punct POpenBrace r3); [|apply safe_ok].
      apply (safe_weaken 1); [lia|]. apply safe_set_with. intros. apply IH. lia.
Qed.
Lemma parse_set_sound : sound parse_set tk_set set_ok.
Proof. intros ts. apply parse_set_with_sound, parse_selection_sound. Qed.
Lemma parse_set_complete sub r : set_ok sub = true -> parse_set (tk_set sub ++ r) = POk sub r.
Proof.
  intros O. unfold parse_set. apply parse_set_with_complete; [exact O|]. intros s r' I F. unfold set_ok in O. apply andb_prop in O. destruct O as (_ & O).
  rewrite forallb_forall in O. apply parse_selection_complete; [exact (O _ I) | | exact F].
  pose proof (concat_length_in tk_selection s _ I) as K. unfold tk_set. cbn [app length]. rewrite !app_length. lia.
Qed.
Lemma safe_set ts : safe 1 ts (parse_set ts).
Proof. unfold parse_set. apply safe_set_with. intros. apply safe_selection. lia. Qed.

(** ** Definitions *)
Lemma optype_of_word t : optype_of (optype_word t) = Some t.
Proof. destruct t; reflexivity. Qed.
Lemma optype_of_inv n t : optype_of n = Some t -> n = optype_word t.
Proof.
  unfold optype_of. destruct (teqb n (tx "query")) eqn:E1; [apply teqb_eq in E1; intros [= <-]; exact E1|].
  destruct (teqb n (tx "mutation")) eqn:E2; [apply teqb_eq in E2; intros [= <-]; exact E2|].
  destruct (teqb n (tx "subscription")) eqn:E3; [apply teqb_eq in E3; intros [= <-]; exact E3|]. discriminate.
Qed.
Lemma parse_operation_sound ts o r : parse_operation ts = POk o r -> ts = tk_operation o ++ r /\ operation_ok o.
Proof.
  unfold parse_operation. destruct (peek_optype ts) eqn:PK.
  - intros H. bi H n0 r0 E0. apply expect_name_inv in E0. subst ts. destruct (optype_of n0) as [ty|] eqn:T; [|discriminate].
    apply optype_of_inv in T. subst n0.
    assert (K : r0 = (match (match next_if_name r0 with Some (n, _) => Some n | None => None end) with Some n => [TkName n] | None => [] end) ++
                  match next_if_name r0 with Some (_, r1) => r1 | None => r0 end).
    { destruct (next_if_name r0) as [[n r1]|] eqn:E; [apply next_if_name_inv in E; exact E | reflexivity]. }
    remember (match next_if_name r0 with Some (n, r1) => (Some n, r1) | None => (None, r0) end) as q eqn:Q.
    destruct q as [nm r1].
    assert (K' : r0 = (match nm with Some n => [TkName n] | None => [] end) ++ r1).
    { destruct (next_if_name r0) as [[n r1']|]; injection Q as -> ->; exact K. }
    clear K Q. bi H vs r2 E2. bi H ds r3 E3. bi H sub r4 E4. injection H as <- <-.
    apply parse_vardefs_sound in E2. destruct E2 as (-> & O2). apply parse_directives_sound in E3. destruct E3 as (-> & O3).
    apply parse_set_sound in E4. destruct E4 as (-> & O4). rewrite K'. unfold tk_operation, operation_ok. cbn [op_explicit op_type op_name op_vars op_dirs op_sel].
    repeat split; auto; try discriminate. destruct nm; flat; reflexivity.
  - destruct (peek_punct POpenBrace ts).
    + intros H. bi H sub r1 E1. injection H as <- <-. apply parse_set_sound in E1. destruct E1 as (-> & O). unfold tk_operation, operation_ok. cbn [op_explicit op_type op_name op_vars op_dirs op_sel]. auto 10.
    + destruct ts; discriminate.
Qed.
Lemma parse_operation_complete o r : operation_ok o -> parse_operation (tk_operation o ++ r) = POk o r.
Proof.
  destruct o as [ex ty nm vs ds sub]. unfold operation_ok, tk_operation. cbn [op_explicit op_type op_name op_vars op_dirs op_sel]. intros (O1 & O2 & O3 & O4).
  destruct ex.
  - unfold parse_operation. cbn [app peek_optype]. rewrite optype_of_word. cbn [expect_name bind]. rewrite optype_of_word.
    rewrite <- !app_assoc.
    set (rest := tk_vardefs vs ++ tk_directives ds ++ tk_set sub ++ r).
    assert (Q : match next_if_name ((match nm with Some n => [TkName n] | None => [] end) ++ rest) with Some (n, r1) => (Some n, r1)
                | None => (None, (match nm with Some n => [TkName n] | None => [] end) ++ rest) end = (nm, rest)).
    { destruct nm; [reflexivity|]. cbn [app]. unfold rest. destruct vs; [destruct ds|]; reflexivity. }
    rewrite Q. unfold rest. rewrite parse_vardefs_complete; [|exact O1|destruct ds; reflexivity]. cbn [bind].
    rewrite parse_directives_complete; [|exact O2|reflexivity|reflexivity]. cbn [bind]. now rewrite parse_set_complete.
  - destruct (O4 eq_refl) as (-> & -> & -> & ->). unfold parse_operation. change (peek_optype (tk_set sub ++ r)) with false. cbv iota.
    change (peek_punct POpenBrace (tk_set sub ++ r)) with true. cbv iota. now rewrite parse_set_complete.
Qed.
Lemma parse_fragment_sound ts f r : parse_fragment ts = POk f r -> ts = tk_fragment f ++ r /\ fragment_ok f.
Proof.
  unfold parse_fragment. intros H. bi H u r0 E0. bi H n r1 E1. destruct (teqb_spec n (tx "on")) as [|N]; [discriminate|].
  bi H c r2 E2. bi H ds r3 E3. bi H sub r4 E4. injection H as <- <-.
  apply expect_name_value_inv in E0. apply expect_name_inv in E1. apply parse_condition_inv in E2. apply parse_directives_sound in E3. destruct E3 as (-> & O3).
  apply parse_set_sound in E4. destruct E4 as (-> & O4). subst. unfold tk_fragment, fragment_ok. cbn [fr_name fr_cond fr_dirs fr_sel app]. rewrite <- app_assoc. auto.
Qed.
Lemma parse_fragment_complete f r : fragment_ok f -> parse_fragment (tk_fragment f ++ r) = POk f r.
Proof.
  destruct f as [n c ds sub]. unfold fragment_ok, tk_fragment. cbn [fr_name fr_cond fr_dirs fr_sel]. intros (O1 & O2 & O3).
  unfold parse_fragment. cbn [app expect_name_value]. rewrite teqb_refl. cbn [bind expect_name]. apply teqb_neq in O1. rewrite O1.
  unfold parse_condition. cbn [expect_name_value]. rewrite teqb_refl. cbn [bind expect_name]. rewrite <- app_assoc, parse_directives_complete; [|exact O2|reflexivity|reflexivity].
  cbn [bind]. now rewrite parse_set_complete.
Qed.
Lemma safe_operation ts : safe 1 ts (parse_operation ts).
Proof.
  unfold parse_operation. destruct (peek_optype ts).
  - apply (safe_bind 1); [apply safe_expect_name|]. intros n0 r0 _ L0. destruct (optype_of n0); [|cbn [safe]; repeat split; try discriminate; lia].
    assert (K : length (snd (match next_if_name r0 with Some (n, r1) => (Some n, r1) | None => (None, r0) end)) <= length r0).
    { destruct (next_if_name r0) as [[n r1]|] eqn:E; cbn [snd]; [|lia]. apply next_if_name_inv in E. subst. cbn [length]. lia. }
    destruct (match next_if_name r0 with Some (n, r1) => (Some n, r1) | None => (None, r0) end) as [nm r1]. cbn [snd] in K.
    match goal with |- safe _ _ ?x => assert (Q : safe 0 r1 x) end.
    { apply (safe_bind 0); [apply safe_vardefs|]. intros vs r2 _ L2. apply (safe_bind 0); [apply safe_directives|]. intros ds r3 _ L3.
      apply (safe_bind 0); [apply (safe_weaken 1), safe_set; lia|]. intros. apply safe_ok. }
    match goal with |- safe _ _ ?x => destruct x end; cbn [safe] in *; intuition lia.
  - destruct (peek_punct POpenBrace ts); [|apply safe_unexpected]. apply (safe_bind 1); [apply safe_set|]. intros. apply safe_ok.
Qed.
Lemma safe_fragment ts : safe 1 ts (parse_fragment ts).
Proof.
  unfold parse_fragment. apply (safe_bind 1); [apply safe_expect_name_value|]. intros u r0 _ L0. apply (safe_bind 0); [apply (safe_weaken 1), safe_expect_name; lia|].
  intros n r1 _ L1. destruct (teqb n (tx "on")); [cbn [safe]; repeat split; try discriminate; lia|].
  apply (safe_bind 0); [apply (safe_weaken 1), safe_condition; lia|]. intros c r2 _ L2. apply (safe_bind 0); [apply safe_directives|]. intros ds r3 _ L3.
  apply (safe_bind 0); [apply (safe_weaken 1), safe_set; lia|]. intros. apply safe_ok.
Qed.
(** failing definitions consume something as well *)
Lemma operation_error_consumes ts e r : peek_optype ts || peek_punct POpenBrace ts = true -> parse_operation ts = PErr e r -> length r < length ts.
Proof.
  unfold parse_operation. destruct (peek_optype ts) eqn:PK.
  - intros _ H. destruct ts as [|t ts]; [discriminate|]. destruct t as [p|n|n|z|b|s]; try discriminate. cbn [expect_name bind] in H. cbn [length].
    cbn [peek_optype] in PK. destruct (optype_of n) as [ty|]; [|discriminate].
    assert (K : length (snd (match next_if_name ts with Some (n, r1) => (Some n, r1) | None => (None, ts) end)) <= length ts).
    { destruct (next_if_name ts) as [[m r1]|] eqn:E; cbn [snd]; [|lia]. apply next_if_name_inv in E. subst. cbn [length]. lia. }
    destruct (match next_if_name ts with Some (n, r1) => (Some n, r1) | None => (None, ts) end) as [nm r1]. cbn [snd] in K.
    match type of H with ?x = _ => assert (Q : safe 0 r1 x) end.
    { apply (safe_bind 0); [apply safe_vardefs|]. intros vs r2 _ L2. apply (safe_bind 0); [apply safe_directives|]. intros ds r3 _ L3.
      apply (safe_bind 0); [apply (safe_weaken 1), safe_set; lia|]. intros. apply safe_ok. }
    rewrite H in Q. cbn [safe] in Q. lia.
  - cbn [orb]. intros PB. rewrite PB. intros H. apply peek_punct_inv in PB. destruct PB as (ts' & ->).
    apply bind_err in H. destruct H as [H|(a & r' & _ & H)]; [|discriminate].
    unfold parse_set, parse_set_with in H. rewrite expect_punct_ok in H. cbn [bind length] in H |- *.
    assert (K : safe 1 ts' (PErr e r : presult (list selection))).
    { rewrite <- H. apply safe_many1; [|lia]. intros. apply safe_selection. lia. }
    cbn [safe] in K. lia.
Qed.
Lemma fragment_error_consumes ts e r : peek_name_matches (tx "fragment") ts = true -> parse_fragment ts = PErr e r -> length r < length ts.
Proof.
  intros PK H. destruct ts as [|t ts]; [discriminate|]. destruct t as [p|n|n|z|b|s]; try discriminate. cbn [peek_name_matches] in PK.
  unfold parse_fragment in H. cbn [expect_name_value] in H. rewrite PK in H. cbn [bind length] in *.
  match type of H with ?x = _ => assert (Q : safe 0 ts x) end.
  { apply (safe_bind 0); [apply (safe_weaken 1), safe_expect_name; lia|].
    intros m r1 _ L1. destruct (teqb m (tx "on")); [cbn [safe]; repeat split; try discriminate; lia|].
    apply (safe_bind 0); [apply (safe_weaken 1), safe_condition; lia|]. intros c r2 _ L2. apply (safe_bind 0); [apply safe_directives|]. intros ds r3 _ L3.
    apply (safe_bind 0); [apply (safe_weaken 1), safe_set; lia|]. intros. apply safe_ok. }
  rewrite H in Q. cbn [safe] in Q. lia.
Qed.
Lemma try_definition_sound ts d r : try_definition ts = Some (POk d r) -> ts = tk_definition d ++ r /\ definition_ok d.
Proof.
  unfold try_definition. destruct (peek_optype ts || peek_punct POpenBrace ts).
  - intros [= H]. bi H o r1 E. injection H as <- <-. exact (parse_operation_sound _ _ _ E).
  - destruct (peek_name_matches (tx "fragment") ts); [|discriminate].
    intros [= H]. bi H o r1 E. injection H as <- <-. exact (parse_fragment_sound _ _ _ E).
Qed.
Lemma try_definition_complete d r : definition_ok d -> try_definition (tk_definition d ++ r) = Some (POk d r).
Proof.
  destruct d as [o|f]; cbn [definition_ok tk_definition]; intros O; unfold try_definition.
  - replace (peek_optype (tk_operation o ++ r) || peek_punct POpenBrace (tk_operation o ++ r)) with true.
    + now rewrite parse_operation_complete.
    + unfold tk_operation. destruct (op_explicit o); [|reflexivity]. cbn [app peek_optype]. now rewrite optype_of_word.
  - replace (peek_optype (tk_fragment f ++ r) || peek_punct POpenBrace (tk_fragment f ++ r)) with false by reflexivity.
    replace (peek_name_matches (tx "fragment") (tk_fragment f ++ r)) with true by reflexivity. now rewrite parse_fragment_complete.
Qed.
Lemma try_definition_safe ts x : try_definition ts = Some x ->
  match x with POk _ r => length r < length ts | PErr e r => e <> PEFuel /\ e <> PEPanic /\ e <> PEEmpty /\ length r < length ts end.
Proof.
  unfold try_definition. destruct (peek_optype ts || peek_punct POpenBrace ts) eqn:E.
  - intros [= <-]. pose proof (safe_operation ts) as K. destruct (parse_operation ts) as [o r|e r] eqn:Ep; cbn [bind safe] in *; [lia|].
    apply operation_error_consumes in Ep; [|exact E]. intuition.
  - destruct (peek_name_matches (tx "fragment") ts) eqn:F; [|discriminate].
    intros [= <-]. pose proof (safe_fragment ts) as K. destruct (parse_fragment ts) as [o r|e r] eqn:Ep; cbn [bind safe] in *; [lia|].
    apply fragment_error_consumes in Ep; [|exact F]. intuition.
Qed.

(** ** Documents *)
Definition doc_app (a b : document) : document := {| doc_ops := doc_ops a ++ doc_ops b; doc_frags := doc_frags a ++ doc_frags b |}.
Lemma doc_app_nil a : doc_app a (document_of []) = a.
Proof. destruct a. unfold doc_app. cbn. now rewrite !app_nil_r. Qed.
Lemma doc_app_cons a d ds : doc_app a (document_of (d :: ds)) =
  doc_app (match d with inl o => {| doc_ops := doc_ops a ++ [o]; doc_frags := doc_frags a |} | inr f => {| doc_ops := doc_ops a; doc_frags := doc_frags a ++ [f] |} end) (document_of ds).
Proof. destruct d; unfold doc_app, document_of; cbn; now rewrite <- app_assoc. Qed.

Lemma document_loop_errs fuel : forall ts d errs b d' errs', document_loop fuel ts d errs b = (d', errs') -> exists l, errs' = errs ++ l.
Proof.
  induction fuel as [|fuel IH]; intros ts d errs b d' errs'; cbn [document_loop].
  - intros [= <- <-]. eauto.
  - destruct (try_definition ts) as [[[o|f] r|e r]|].
    + apply IH.
    + apply IH.
    + intros H. apply IH in H. destruct b; [exact H|]. destruct H as (l & ->). rewrite <- app_assoc. eauto.
    + destruct ts as [|t ts].
      * intros [= <- <-]. exists []. now rewrite app_nil_r.
      * intros H. apply IH in H. destruct b; [exact H|]. destruct H as (l & ->). rewrite <- app_assoc. eauto.
Qed.
Lemma document_loop_sound fuel : forall ts d errs b d', document_loop fuel ts d errs b = (d', []) -> b = false ->
  exists ds, ts = concat (map tk_definition ds) /\ Forall definition_ok ds /\ d' = doc_app d (document_of ds).
Proof.
  induction fuel as [|fuel IH]; intros ts d errs b d' H ->; cbn [document_loop] in H; [apply (f_equal snd) in H; cbn in H; destruct errs; discriminate|].
  assert (Z : forall r e, document_loop fuel r d (errs ++ [e]) true <> (d', [])).
  { intros r e H'. apply document_loop_errs in H'. destruct H' as (l & H'). destruct errs; discriminate. }
  destruct (try_definition ts) as [[[o|f] r|e r]|] eqn:E.
  - apply IH in H; [|reflexivity]. destruct H as (ds & -> & F & ->). apply try_definition_sound in E. destruct E as (-> & O).
    exists (inl o :: ds). rewrite doc_app_cons. repeat split. now constructor.
  - apply IH in H; [|reflexivity]. destruct H as (ds & -> & F & ->). apply try_definition_sound in E. destruct E as (-> & O).
    exists (inr f :: ds). rewrite doc_app_cons. repeat split. now constructor.
  - now apply Z in H.
  - destruct ts as [|t ts]; [|now apply Z in H]. injection H as <- H. exists []. rewrite doc_app_nil. auto.
Qed.
Lemma tk_definition_nonempty d : tk_definition d <> [].
Proof. destruct d as [o|f]; cbn [tk_definition]; [|unfold tk_fragment; congruence]. unfold tk_operation, tk_set. destruct (op_explicit o); congruence. Qed.
Lemma document_loop_complete ds : forall fuel d, Forall definition_ok ds -> length ds < fuel ->
  document_loop fuel (concat (map tk_definition ds)) d [] false = (doc_app d (document_of ds), []).
Proof.
  induction ds as [|x ds IH]; intros fuel d F L; (destruct fuel as [|fuel]; [cbn in L; lia|]); cbn [document_loop map concat].
  - cbn. now rewrite doc_app_nil.
  - inversion_clear F as [|? ? O F']. rewrite try_definition_complete; [|exact O]. rewrite doc_app_cons.
    destruct x as [o|f]; (rewrite IH; [reflexivity | exact F' | cbn in L; lia]).
Qed.
Definition real (e : perr) : Prop := e <> PEFuel /\ e <> PEPanic /\ e <> PEEmpty.
Lemma document_loop_real fuel : forall ts d errs b d' errs', length ts < fuel -> document_loop fuel ts d errs b = (d', errs') -> Forall real errs -> Forall real errs'.
Proof.
  induction fuel as [|fuel IH]; intros ts d errs b d' errs' L H F; [lia|]. cbn [document_loop] in H.
  destruct (try_definition ts) as [x|] eqn:E.
  - pose proof (try_definition_safe _ _ E) as K. destruct x as [[o|f] r|e r].
    + eapply IH; [|exact H|exact F]. lia.
    + eapply IH; [|exact H|exact F]. lia.
    + eapply IH; [|exact H|]; [lia|]. destruct b; [exact F|]. apply Forall_app. split; [exact F|]. constructor; [unfold real; intuition | constructor].
  - destruct ts as [|t ts].
    + injection H as <- <-. exact F.
    + cbn [length] in L. eapply IH; [|exact H|]; [lia|]. destruct b; [exact F|]. apply Forall_app. split; [exact F|]. repeat constructor; discriminate.
Qed.
