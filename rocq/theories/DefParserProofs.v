(** The parser of definitions reads exactly the grammar of DefParserSpec.v. *)
From Verif Require Import Base Ast Lexer Parser ParserSpec ParserProofs ParserDocProofs DefParser DefParserSpec.
From Coq Require Import Lia.

(** ** Descriptions *)
Lemma next_if_string_eq ts d r : next_if_string ts = (d, r) -> ts = tk_desc d ++ r.
Proof. destruct ts as [|[] ts]; cbn; intros [= <- <-]; reflexivity. Qed.
Lemma next_if_string_ok d n r : next_if_string (tk_desc d ++ TkName n :: r) = (d, TkName n :: r).
Proof. destruct d; reflexivity. Qed.
Lemma next_if_string_length ts d r : next_if_string ts = (d, r) -> length r <= length ts.
Proof. intros E. apply next_if_string_eq in E. subst. rewrite app_length. lia. Qed.
Ltac desc H d r0 E0 := destruct (next_if_string _) as [d r0] eqn:E0 in H; apply next_if_string_eq in E0.

(** ** What can follow *)
(** not a punctuator, unless one that closes *)
Definition ends (r : list token) : Prop := forall p, peek_punct p r = true -> p = PCloseRound \/ p = PCloseBrace.
Lemma ends_peek r p : ends r -> p <> PCloseRound -> p <> PCloseBrace -> peek_punct p r = false.
Proof. intros E N1 N2. destruct (peek_punct p r) eqn:K; [|reflexivity]. destruct (E _ K); congruence. Qed.
Lemma ends_nil : ends [].
Proof. intros p. discriminate. Qed.
Lemma ends_name n r : ends (TkName n :: r).
Proof. intros p. discriminate. Qed.
Lemma ends_desc d n r : ends (tk_desc d ++ TkName n :: r).
Proof. destruct d; intros p; discriminate. Qed.
Lemma ends_round r : ends (P PCloseRound :: r).
Proof. intros p H. destruct p; try discriminate. auto. Qed.
Lemma ends_brace r : ends (P PCloseBrace :: r).
Proof. intros p H. destruct p; try discriminate. auto. Qed.
Ltac ends H := first [exact H | apply (ends_peek _ _ H); discriminate].
Lemma next_if_punct_desc p d n r : next_if_punct p (tk_desc d ++ TkName n :: r) = None.
Proof. destruct d; reflexivity. Qed.
Lemma desc_nonempty d (t : token) r : tk_desc d ++ t :: r <> [].
Proof. destruct d; discriminate. Qed.

(** ** Default values *)
Lemma parse_default_sound ts d r : parse_default ts = POk d r -> ts = tk_default d ++ r /\ default_ok d = true.
Proof.
  unfold parse_default. destruct (next_if_punct PEquals ts) as [r0|] eqn:E.
  - intros H. bi H w r6 E6. injection H as <- <-. apply next_if_punct_inv in E. apply parse_value_sound in E6. destruct E6 as (-> & O6). subst. split; [reflexivity | exact O6].
  - intros [= <- <-]. auto.
Qed.
Lemma parse_default_complete d r : default_ok d = true -> peek_punct PEquals r = false -> parse_default (tk_default d ++ r) = POk d r.
Proof.
  intros O N. unfold parse_default. destruct d as [d|]; cbn [tk_default app].
  - rewrite next_if_punct_ok. rewrite parse_value_complete; [reflexivity|exact O|rewrite app_length; lia].
  - now rewrite (peek_next _ _ N).
Qed.
Lemma peek_default p d r : p <> PEquals -> peek_punct p r = false -> peek_punct p (tk_default d ++ r) = false.
Proof. intros N F. destruct d; [|exact F]. cbn. destruct p; try reflexivity. congruence. Qed.

(** ** Input values *)
Lemma parse_ivd_sound : sound parse_ivd tk_ivd ivd_ok.
Proof.
  intros ts v r H. unfold parse_ivd in H. desc H dd r0 E0. bi H n r1 E1. bi H u r2 E2. bi H t r3 E3. bi H d r4 E4. bi H ds r5 E5. injection H as <- <-.
  apply expect_name_inv in E1. apply expect_punct_inv in E2. apply parse_tref_sound in E3. destruct E3 as (-> & _). apply parse_default_sound in E4. destruct E4 as (-> & O4).
  apply parse_directives_sound in E5. destruct E5 as (-> & O5). subst. unfold tk_ivd, ivd_ok. cbn [iv_name iv_desc iv_type iv_default iv_dirs]. rewrite O4, O5. split; [|reflexivity]. now flat.
Qed.
Lemma parse_ivd_complete v r : ivd_ok v = true -> ends r -> parse_ivd (tk_ivd v ++ r) = POk v r.
Proof.
  destruct v as [n dd t d ds]. unfold ivd_ok. cbn [iv_default iv_dirs]. intros O F. apply andb_prop in O. destruct O as (O1 & O2).
  unfold parse_ivd, tk_ivd. cbn [iv_name iv_desc iv_type iv_default iv_dirs]. flat. rewrite next_if_string_ok. cbn [expect_name bind]. rewrite expect_punct_ok. cbn [bind].
  rewrite parse_tref_complete; [|rewrite app_length; lia|].
  - cbn [bind]. rewrite parse_default_complete; [|exact O1|apply peek_directives; [discriminate|ends F]]. cbn [bind]. now rewrite parse_directives_complete; [|exact O2|ends F|ends F].
  - apply peek_default; [discriminate|]. apply peek_directives; [discriminate|ends F].
Qed.
Lemma safe_desc {A} k ts (f : option text -> list token -> presult A) : (forall d r, length r <= length ts -> safe k r (f d r)) ->
  safe k ts (let '(d, r) := next_if_string ts in f d r).
Proof.
  intros H. destruct (next_if_string ts) as [d r] eqn:E. apply next_if_string_length in E. specialize (H d r E). destruct (f d r); cbn [safe] in *; intuition lia.
Qed.
Lemma safe_ivd ts : safe 1 ts (parse_ivd ts).
Proof.
  unfold parse_ivd. apply safe_desc. intros dd r0 _. apply (safe_bind 1); [apply safe_expect_name|]. intros n r1 _ L1.
  apply (safe_bind 0); [apply (safe_weaken 1), safe_expect_punct; lia|]. intros u r2 _ L2.
  apply (safe_bind 0); [apply (safe_weaken 1), safe_tref; lia|]. intros t r3 _ L3.
  apply (safe_bind 0); [apply safe_default|]. intros d r4 _ L4.
  apply (safe_bind 0); [apply safe_directives|]. intros. apply safe_ok.
Qed.

(** ** Lists in brackets *)
Section Braced.
  Context {A : Type} (item : list token -> presult A) (tk : A -> list token) (ok : A -> bool).
  Hypothesis item_sound : sound item tk ok.
  Hypothesis item_complete : forall a r, ok a = true -> ends r -> item (tk a ++ r) = POk a r.
  Hypothesis item_safe : forall ts, safe 1 ts (item ts).
  Hypothesis item_head : forall a, exists d n l, tk a = tk_desc d ++ TkName n :: l.
  Lemma item_nonempty a : tk a <> [].
  Proof. destruct (item_head a) as (d & n & l & ->). apply desc_nonempty. Qed.
  Lemma item_start close a r : ends (tk a ++ r) /\ next_if_punct close (tk a ++ r) = None.
  Proof. destruct (item_head a) as (d & n & l & ->). rewrite <- app_assoc. cbn [app]. split; [apply ends_desc | apply next_if_punct_desc]. Qed.
  Lemma list_complete close l r : ends (P close :: r) -> l <> [] -> forallb ok l = true -> forall fuel, length l <= fuel ->
    many1 item close fuel (concat (map tk l) ++ P close :: r) = POk l r.
  Proof.
    intros F NE O fuel L. rewrite forallb_forall in O. apply (many1_complete _ _ ends); auto. intros. apply item_start.
  Qed.
  Lemma list_length l : length l <= length (concat (map tk l)).
  Proof. apply concat_length_all. intros. apply item_nonempty. Qed.
  Definition parse_braced (ts : list token) : presult (list A) := do (u, r) <- expect_punct POpenBrace ts; many1 item PCloseBrace (S (length r)) r.
  Lemma parse_braced_sound ts l r : parse_braced ts = POk l r -> ts = braced tk l ++ r /\ forallb ok l = true /\ l <> [].
  Proof.
    unfold parse_braced. intros H. bi H u r1 E1. apply expect_punct_inv in E1. apply (many1_sound _ _ _ _ item_sound) in H.
    destruct H as (-> & O & NE). subst. unfold braced. flat. auto.
  Qed.
  Lemma parse_braced_complete l r : forallb ok l = true -> l <> [] -> parse_braced (braced tk l ++ r) = POk l r.
  Proof.
    intros O NE. unfold parse_braced, braced. flat. rewrite expect_punct_ok. cbn [bind]. apply list_complete; auto; [apply ends_brace|].
    rewrite app_length. pose proof (list_length l). lia.
  Qed.
  Lemma safe_braced ts : safe 1 ts (parse_braced ts).
  Proof.
    unfold parse_braced. apply (safe_bind 1); [apply safe_expect_punct|]. intros u r _ L. apply (safe_weaken 1); [lia|]. apply safe_many1; [|lia]. auto.
  Qed.
End Braced.
Lemma ivd_head i : exists d n l, tk_ivd i = tk_desc d ++ TkName n :: l.
Proof. unfold tk_ivd. eauto. Qed.
Lemma parse_args_def_sound : sound parse_ivds_args tk_args_def (forallb ivd_ok).
Proof.
  intros ts l r H. unfold parse_ivds_args in H. destruct (peek_punct POpenRound ts).
  - bi H u r1 E1. apply expect_punct_inv in E1. apply (many1_sound _ _ _ _ parse_ivd_sound) in H.
    destruct H as (-> & O & NE). split; [|exact O]. rewrite E1. destruct l; [congruence|]. unfold tk_args_def. cbn [app]. now rewrite <- app_assoc.
  - injection H as <- <-. auto.
Qed.
Lemma parse_args_def_complete l r : forallb ivd_ok l = true -> peek_punct POpenRound r = false -> parse_ivds_args (tk_args_def l ++ r) = POk l r.
Proof.
  intros O N. unfold parse_ivds_args. destruct l as [|a l]; [cbn [tk_args_def app]; now rewrite N|].
  set (l' := a :: l) in *. assert (E : tk_args_def l' ++ r = P POpenRound :: concat (map tk_ivd l') ++ P PCloseRound :: r)
    by (unfold tk_args_def, l'; cbn [app]; now rewrite <- app_assoc).
  rewrite E. change (peek_punct POpenRound (P POpenRound :: _)) with true. cbv iota. rewrite expect_punct_ok. cbn [bind].
  apply (list_complete _ _ ivd_ok parse_ivd_complete ivd_head); auto; [apply ends_round | unfold l'; congruence |].
  rewrite app_length. pose proof (list_length _ ivd_head l'). lia.
Qed.
Lemma safe_args_def ts : safe 0 ts (parse_ivds_args ts).
Proof.
  unfold parse_ivds_args. destruct (peek_punct POpenRound ts); [|apply safe_ok].
  apply (safe_bind 1); [apply safe_expect_punct|]. intros u r _ L. apply (safe_weaken 1); [lia|]. apply safe_many1; [|lia]. intros. apply safe_ivd.
Qed.

(** ** Fields and enum values *)
Lemma parse_fdef_sound : sound parse_fdef tk_fdef fdef_ok.
Proof.
  intros ts v r H. unfold parse_fdef in H. desc H dd r0 E0. bi H n r1 E1. bi H args r2 E2. bi H u r3 E3. bi H t r4 E4. bi H ds r5 E5. injection H as <- <-.
  apply expect_name_inv in E1. apply parse_args_def_sound in E2. destruct E2 as (-> & O2). apply expect_punct_inv in E3. apply parse_tref_sound in E4. destruct E4 as (-> & _).
  apply parse_directives_sound in E5. destruct E5 as (-> & O5). subst. unfold tk_fdef, fdef_ok. cbn [fd_name fd_desc fd_args fd_type fd_dirs fd_builtin]. rewrite O2, O5. split; [|reflexivity]. now flat.
Qed.
Lemma parse_fdef_complete f r : fdef_ok f = true -> ends r -> parse_fdef (tk_fdef f ++ r) = POk f r.
Proof.
  destruct f as [n dd args t ds b]. unfold fdef_ok. cbn [fd_args fd_dirs fd_builtin]. intros O F. apply andb_prop in O. destruct O as (O & O2). apply andb_prop in O. destruct O as (Ob & O1).
  destruct b; [discriminate|].
  unfold parse_fdef, tk_fdef. cbn [fd_name fd_desc fd_args fd_type fd_dirs]. flat. rewrite next_if_string_ok. cbn [expect_name bind].
  rewrite parse_args_def_complete; [|exact O1|reflexivity]. cbn [bind]. rewrite expect_punct_ok. cbn [bind].
  rewrite parse_tref_complete; [|rewrite app_length; lia|apply peek_directives; [discriminate|ends F]]. cbn [bind]. now rewrite parse_directives_complete; [|exact O2|ends F|ends F].
Qed.
Lemma safe_fdef ts : safe 1 ts (parse_fdef ts).
Proof.
  unfold parse_fdef. apply safe_desc. intros dd r0 _. apply (safe_bind 1); [apply safe_expect_name|]. intros n r1 _ L1.
  apply (safe_bind 0); [apply safe_args_def|]. intros args r2 _ L2.
  apply (safe_bind 0); [apply (safe_weaken 1), safe_expect_punct; lia|]. intros u r3 _ L3.
  apply (safe_bind 0); [apply (safe_weaken 1), safe_tref; lia|]. intros t r4 _ L4.
  apply (safe_bind 0); [apply safe_directives|]. intros. apply safe_ok.
Qed.
Lemma fdef_head f : exists d n l, tk_fdef f = tk_desc d ++ TkName n :: l.
Proof. unfold tk_fdef. eauto. Qed.
Lemma written_fields_all l : forallb fdef_ok l = true -> written_fields l = l.
Proof.
  unfold written_fields. induction l as [|f l IH]; [reflexivity|]. cbn [forallb filter]. intros H. apply andb_prop in H. destruct H as (O & H).
  unfold fdef_ok in O. destruct (fd_builtin f); [discriminate|]. cbn [negb]. now rewrite IH.
Qed.
Lemma parse_fdefs_sound ts fs r : parse_fdefs ts = POk fs r -> ts = braced tk_fdef (written_fields fs) ++ r /\ fields_ok fs.
Proof.
  unfold parse_fdefs. intros H. bi H u r1 E1. bi H l r2 E2. injection H as <- <-. apply expect_punct_inv in E1. apply (many1_sound _ _ _ _ parse_fdef_sound) in E2.
  destruct E2 as (-> & O & NE). split.
  - change (written_fields (typename_field :: l)) with (written_fields l). rewrite written_fields_all by exact O. subst. unfold braced. now flat.
  - exists l. auto.
Qed.
Lemma parse_fdefs_complete fs r : fields_ok fs -> parse_fdefs (braced tk_fdef (written_fields fs) ++ r) = POk fs r.
Proof.
  intros (l & -> & NE & O). change (written_fields (typename_field :: l)) with (written_fields l). rewrite written_fields_all by exact O.
  pose proof (parse_braced_complete _ _ _ parse_fdef_complete fdef_head l r O NE) as K. unfold parse_braced in K.
  unfold parse_fdefs. unfold braced in *. cbn [app] in *. rewrite expect_punct_ok in *. cbn [bind] in *. now rewrite K.
Qed.
Lemma safe_fdefs ts : safe 1 ts (parse_fdefs ts).
Proof.
  unfold parse_fdefs. apply (safe_bind 1); [apply safe_expect_punct|]. intros u r _ L. apply (safe_bind 0); [|intros; apply safe_ok].
  apply (safe_weaken 1); [lia|]. apply safe_many1; [|lia]. intros. apply safe_fdef.
Qed.
Lemma reserved_orb n : teqb n (tx "null") || teqb n (tx "true") || teqb n (tx "false") = reserved n.
Proof. unfold reserved. destruct (teqb n (tx "null")), (teqb n (tx "true")), (teqb n (tx "false")); reflexivity. Qed.
Lemma parse_evd_sound : sound parse_evd tk_evd evd_ok.
Proof.
  intros ts v r H. unfold parse_evd in H. desc H dd r0 E0. bi H n r1 E1. rewrite reserved_orb in H. destruct (reserved n) eqn:R; [discriminate|]. bi H ds r2 E2. injection H as <- <-.
  apply expect_name_inv in E1. apply parse_directives_sound in E2. destruct E2 as (-> & O). subst. unfold tk_evd, evd_ok. cbn [ev_name ev_desc ev_dirs]. rewrite R, O. split; [|reflexivity]. now flat.
Qed.
Lemma parse_evd_complete v r : evd_ok v = true -> ends r -> parse_evd (tk_evd v ++ r) = POk v r.
Proof.
  destruct v as [n dd ds]. unfold evd_ok. cbn [ev_name ev_dirs]. intros O F. apply andb_prop in O. destruct O as (O1 & O2).
  unfold parse_evd, tk_evd. cbn [ev_name ev_desc ev_dirs]. flat. rewrite next_if_string_ok. cbn [expect_name bind]. rewrite reserved_orb. destruct (reserved n); [discriminate|].
  now rewrite parse_directives_complete; [|exact O2|ends F|ends F].
Qed.
Lemma safe_evd ts : safe 1 ts (parse_evd ts).
Proof.
  unfold parse_evd. apply safe_desc. intros dd r0 _. apply (safe_bind 1); [apply safe_expect_name|]. intros n r1 _ L1.
  destruct (_ || _ || _); [cbn [safe]; repeat split; try discriminate; lia|]. apply (safe_bind 0); [apply safe_directives|]. intros. apply safe_ok.
Qed.
Lemma evd_head v : exists d n l, tk_evd v = tk_desc d ++ TkName n :: l.
Proof. unfold tk_evd. eauto. Qed.

(** ** Lists with separators *)
Section Separated.
  Context {A : Type} (item : list token -> presult A) (tk : A -> list token) (sep : punct).
  Hypothesis item_sound : sound item tk (fun _ => true).
  Hypothesis item_complete : forall a r, item (tk a ++ r) = POk a r.
  Hypothesis item_safe : forall ts, safe 1 ts (item ts).
  Hypothesis item_head : forall a r, next_if_punct sep (tk a ++ r) = None.
  Notation tail l := (concat (map (fun b => P sep :: tk b) l)).
  Lemma many_sep_sound fuel : forall ts l r, many_sep item sep fuel ts = POk l r -> ts = tail l ++ r.
  Proof.
    induction fuel as [|fuel IH]; cbn [many_sep]; [discriminate|]. intros ts l r. destruct (next_if_punct sep ts) as [r0|] eqn:E.
    - intros H. bi H a r1 E1. bi H l' r2 E2. injection H as <- <-. apply next_if_punct_inv in E. apply item_sound in E1. destruct E1 as (-> & _). apply IH in E2. subst. cbn [map concat]. now flat.
    - intros [= <- <-]. reflexivity.
  Qed.
  Lemma many_sep_complete l r : next_if_punct sep r = None -> forall fuel, length l < fuel -> many_sep item sep fuel (tail l ++ r) = POk l r.
  Proof.
    intros N. induction l as [|a l IH]; intros fuel L; (destruct fuel as [|fuel]; [cbn in L; lia|]); cbn [many_sep map concat app].
    - now rewrite N.
    - rewrite next_if_punct_ok. rewrite <- app_assoc, item_complete. cbn [bind]. rewrite IH by (cbn in L; lia). reflexivity.
  Qed.
  Lemma safe_many_sep fuel : forall ts, length ts < fuel -> safe 0 ts (many_sep item sep fuel ts).
  Proof.
    induction fuel as [|fuel IH]; intros ts L; [lia|]. cbn [many_sep]. destruct (next_if_punct sep ts) as [r|] eqn:E; [|apply safe_ok].
    apply next_if_punct_length in E. assert (K : safe 0 r (do (a, r1) <- item r; do (l, r2) <- many_sep item sep fuel r1; POk (a :: l) r2)).
    { apply (safe_bind 1); [apply item_safe|]. intros a r1 _ L1. apply (safe_bind 0); [apply IH; lia|]. intros. apply safe_ok. }
    destruct (bind _ _); cbn [safe] in *; intuition lia.
  Qed.
  Lemma parse_sep_list_sound ts l r : parse_sep_list item sep ts = POk l r -> l <> [] /\ exists lead, ts = tk_sep_list lead sep tk l ++ r.
  Proof.
    unfold parse_sep_list. intros H. bi H a r1 E1. bi H l' r2 E2. injection H as <- <-. split; [congruence|].
    apply item_sound in E1. destruct E1 as (E1 & _). apply many_sep_sound in E2. subst r1. destruct (next_if_punct sep ts) as [r0|] eqn:E.
    - apply next_if_punct_inv in E. exists true. subst. cbn [tk_sep_list]. now flat.
    - exists false. subst. cbn [tk_sep_list]. now flat.
  Qed.
  Lemma parse_sep_list_complete lead l r : l <> [] -> next_if_punct sep r = None -> parse_sep_list item sep (tk_sep_list lead sep tk l ++ r) = POk l r.
  Proof.
    intros NE N. destruct l as [|a l]; [congruence|]. unfold parse_sep_list. cbn [tk_sep_list]. rewrite <- !app_assoc.
    replace (match next_if_punct sep _ with Some r0 => r0 | None => _ end) with (tk a ++ tail l ++ r).
    - rewrite item_complete. cbn [bind]. rewrite many_sep_complete; [reflexivity | exact N |]. rewrite app_length. assert (length l <= length (tail l)); [|lia].
      apply concat_length_all. intros. congruence.
    - destruct lead; cbn [app]; [now rewrite next_if_punct_ok | now rewrite item_head].
  Qed.
  Lemma safe_sep_list ts : safe 1 ts (parse_sep_list item sep ts).
  Proof.
    unfold parse_sep_list. set (r0 := match next_if_punct sep ts with Some r => r | None => ts end).
    assert (L : length r0 <= length ts) by (unfold r0; destruct (next_if_punct sep ts) eqn:E; [apply next_if_punct_length in E|]; lia).
    assert (K : safe 1 r0 (do (a, r1) <- item r0; do (l, r2) <- many_sep item sep (S (length r1)) r1; POk (a :: l) r2)).
    { apply (safe_bind 1); [apply item_safe|]. intros a r1 _ L1. apply (safe_bind 0); [apply safe_many_sep; lia|]. intros. apply safe_ok. }
    destruct (bind _ _); cbn [safe] in *; intuition lia.
  Qed.
End Separated.
Lemma expect_name_sound : sound expect_name tk_name (fun _ => true).
Proof. intros ts n r H. apply expect_name_inv in H. auto. Qed.
Lemma expect_name_complete n r : expect_name (tk_name n ++ r) = POk n r.
Proof. reflexivity. Qed.
Lemma dloc_word l : dloc_text l = tx (location_word l).
Proof. destruct l; reflexivity. Qed.
Lemma dloc_of_text l : dloc_of (dloc_text l) = Some l.
Proof. destruct l; reflexivity. Qed.
Lemma dloc_of_inv n l : dloc_of n = Some l -> n = dloc_text l.
Proof. unfold dloc_of. intros H. apply find_some in H. destruct H as (_ & H). apply teqb_eq in H. now symmetry. Qed.
Lemma parse_location_sound : sound parse_location tk_location (fun _ => true).
Proof.
  intros ts l r H. unfold parse_location in H. bi H n r1 E1. apply expect_name_inv in E1. destruct (dloc_of n) eqn:E; [|discriminate]. injection H as <- <-. apply dloc_of_inv in E. unfold tk_location. rewrite <- dloc_word. subst. auto.
Qed.
Lemma parse_location_complete l r : parse_location (tk_location l ++ r) = POk l r.
Proof. unfold parse_location, tk_location. rewrite <- dloc_word. cbn [app expect_name bind]. now rewrite dloc_of_text. Qed.
Lemma safe_location ts : safe 1 ts (parse_location ts).
Proof. unfold parse_location. apply (safe_bind 1); [apply safe_expect_name|]. intros n r _ L. destruct (dloc_of n); [apply safe_ok|]. cbn [safe]. repeat split; try discriminate; lia. Qed.
Lemma parse_implements_sound ts l r : parse_implements ts = POk l r -> exists lead, ts = tk_implements lead l ++ r.
Proof.
  unfold parse_implements. destruct (peek_name_matches _ ts).
  - intros H. bi H u r1 E1. apply expect_name_value_inv in E1. apply (parse_sep_list_sound _ _ _ expect_name_sound) in H. destruct H as (NE & lead & ->). exists lead. subst. destruct l; [congruence|]. reflexivity.
  - intros [= <- <-]. exists false. reflexivity.
Qed.
Lemma parse_implements_complete lead l r : next_if_punct PAmpersand r = None -> peek_name_matches (tx "implements") r = false -> parse_implements (tk_implements lead l ++ r) = POk l r.
Proof.
  intros N1 N2. unfold parse_implements. destruct l as [|a l]; [cbn [tk_implements app]; now rewrite N2|].
  unfold tk_implements. cbn [app peek_name_matches]. rewrite teqb_refl. cbn [expect_name_value]. rewrite teqb_refl. cbn [bind].
  apply parse_sep_list_complete; [apply expect_name_complete | reflexivity | congruence | exact N1].
Qed.
Lemma safe_implements ts : safe 0 ts (parse_implements ts).
Proof.
  unfold parse_implements. destruct (peek_name_matches _ ts); [|apply safe_ok]. apply (safe_bind 0); [apply (safe_weaken 1), safe_expect_name_value; lia|].
  intros u r _ _. apply (safe_weaken 1); [lia|]. apply safe_sep_list. apply safe_expect_name.
Qed.
Lemma parse_root_sound : sound parse_root tk_root (fun _ => true).
Proof.
  intros ts p r H. unfold parse_root in H. bi H w r1 E1. destruct (optype_of w) as [ty|] eqn:T; [|discriminate]. bi H u r2 E2. bi H n r3 E3. injection H as <- <-.
  apply expect_name_inv in E1. apply expect_punct_inv in E2. apply expect_name_inv in E3. apply optype_of_inv in T. subst. auto.
Qed.
Lemma parse_root_complete p r : true = true -> ends r -> parse_root (tk_root p ++ r) = POk p r.
Proof. intros _ _. destruct p as [ty n]. unfold parse_root, tk_root. cbn [fst snd app expect_name bind]. rewrite optype_of_word, expect_punct_ok. reflexivity. Qed.
Lemma safe_root ts : safe 1 ts (parse_root ts).
Proof.
  unfold parse_root. apply (safe_bind 1); [apply safe_expect_name|]. intros w r1 _ L1. destruct (optype_of w); [|cbn [safe]; repeat split; try discriminate; lia].
  apply (safe_bind 0); [apply (safe_weaken 1), safe_expect_punct; lia|]. intros u r2 _ L2. apply (safe_bind 0); [apply (safe_weaken 1), safe_expect_name; lia|]. intros. apply safe_ok.
Qed.
Lemma root_head p : exists d n l, tk_root p = tk_desc d ++ TkName n :: l.
Proof. exists None. unfold tk_root. cbn. eauto. Qed.

(** ** Definitions *)
Lemma next_if_punct_ends p r : ends r -> p <> PCloseRound -> p <> PCloseBrace -> next_if_punct p r = None.
Proof. intros E N1 N2. apply peek_next, ends_peek; assumption. Qed.
Lemma next_if_punct_directives p ds r : p <> PAt -> next_if_punct p r = None -> next_if_punct p (tk_directives ds ++ r) = None.
Proof. intros N F. destruct ds as [|d ds]; [exact F|]. cbn. destruct p; try reflexivity. congruence. Qed.
Lemma peek_name_directives n ds r : peek_name_matches n r = false -> peek_name_matches n (tk_directives ds ++ r) = false.
Proof. intros F. destruct ds; [exact F | reflexivity]. Qed.
Lemma parse_scalar_sound ts t r : parse_scalar ts = POk t r -> exists lead, ts = tk_tdef lead t ++ r /\ sysdef_ok (SysType t).
Proof.
  intros H. unfold parse_scalar in H. desc H dd r0 E0. bi H u r1 E1. bi H n r2 E2. bi H ds r3 E3. injection H as <- <-.
  apply expect_name_value_inv in E1. apply expect_name_inv in E2. apply parse_directives_sound in E3. destruct E3 as (-> & O). subst. exists false. cbn. split; [now flat | exact O].
Qed.
Lemma parse_object_sound ts t r : parse_object ts = POk t r -> exists lead, ts = tk_tdef lead t ++ r /\ sysdef_ok (SysType t).
Proof.
  intros H. unfold parse_object in H. desc H dd r0 E0. bi H u r1 E1. bi H n r2 E2. bi H is_ r3 E3. bi H ds r4 E4. bi H fs r5 E5. injection H as <- <-.
  apply expect_name_value_inv in E1. apply expect_name_inv in E2. apply parse_implements_sound in E3. destruct E3 as (lead & ->).
  apply parse_directives_sound in E4. destruct E4 as (-> & O). apply parse_fdefs_sound in E5. destruct E5 as (-> & O5). subst. exists lead.
  cbn [tk_tdef sysdef_ok ob_desc ob_name ob_ifaces ob_dirs ob_fields ob_builtin]. split; [now flat | auto].
Qed.
Lemma parse_interface_sound ts t r : parse_interface ts = POk t r -> exists lead, ts = tk_tdef lead t ++ r /\ sysdef_ok (SysType t).
Proof.
  intros H. unfold parse_interface in H. desc H dd r0 E0. bi H u r1 E1. bi H n r2 E2. bi H is_ r3 E3. bi H ds r4 E4. bi H fs r5 E5. injection H as <- <-.
  apply expect_name_value_inv in E1. apply expect_name_inv in E2. apply parse_implements_sound in E3. destruct E3 as (lead & ->).
  apply parse_directives_sound in E4. destruct E4 as (-> & O). apply parse_fdefs_sound in E5. destruct E5 as (-> & O5). subst. exists lead.
  cbn [tk_tdef sysdef_ok if_desc if_name if_ifaces if_dirs if_fields]. split; [now flat | auto].
Qed.
Lemma parse_union_sound ts t r : parse_union ts = POk t r -> exists lead, ts = tk_tdef lead t ++ r /\ sysdef_ok (SysType t).
Proof.
  intros H. unfold parse_union in H. desc H dd r0 E0. bi H u r1 E1. bi H n r2 E2. bi H ds r3 E3. bi H u' r4 E4. bi H ms r5 E5. injection H as <- <-.
  apply expect_name_value_inv in E1. apply expect_name_inv in E2. apply parse_directives_sound in E3. destruct E3 as (-> & O). apply expect_punct_inv in E4.
  apply (parse_sep_list_sound _ _ _ expect_name_sound) in E5. destruct E5 as (NE & lead & ->). subst. exists lead.
  cbn [tk_tdef sysdef_ok un_desc un_name un_dirs un_members un_fields]. split; [now flat | auto].
Qed.
Lemma parse_input_sound ts t r : parse_input ts = POk t r -> exists lead, ts = tk_tdef lead t ++ r /\ sysdef_ok (SysType t).
Proof.
  intros H. unfold parse_input in H. desc H dd r0 E0. bi H u r1 E1. bi H n r2 E2. bi H ds r3 E3. bi H fs r4 E4. injection H as <- <-.
  apply expect_name_value_inv in E1. apply expect_name_inv in E2. apply parse_directives_sound in E3. destruct E3 as (-> & O).
  apply (parse_braced_sound _ _ _ parse_ivd_sound) in E4. destruct E4 as (-> & O4 & NE). subst. exists false.
  cbn [tk_tdef sysdef_ok io_desc io_name io_dirs io_fields]. split; [now flat | auto].
Qed.
Lemma parse_enum_sound ts t r : parse_enum ts = POk t r -> exists lead, ts = tk_tdef lead t ++ r /\ sysdef_ok (SysType t).
Proof.
  intros H. unfold parse_enum in H. desc H dd r0 E0. bi H u r1 E1. bi H n r2 E2. bi H ds r3 E3. bi H vs r4 E4. injection H as <- <-.
  apply expect_name_value_inv in E1. apply expect_name_inv in E2. apply parse_directives_sound in E3. destruct E3 as (-> & O).
  apply (parse_braced_sound _ _ _ parse_evd_sound) in E4. destruct E4 as (-> & O4 & NE). subst. exists false.
  cbn [tk_tdef sysdef_ok en_desc en_name en_dirs en_values en_builtin]. split; [now flat | auto].
Qed.
Lemma parse_esdef_sound ts e r : parse_esdef ts = POk e r -> ts = tk_esdef e ++ r /\ sysdef_ok (SysSchema e).
Proof.
  intros H. unfold parse_esdef in H. desc H dd r0 E0. bi H u r1 E1. bi H ds r2 E2. bi H u' r3 E3. bi H l r4 E4. injection H as <- <-.
  apply expect_name_value_inv in E1. apply parse_directives_sound in E2. destruct E2 as (-> & O). apply expect_punct_inv in E3. apply (many1_sound _ _ _ _ parse_root_sound) in E4.
  destruct E4 as (-> & _ & NE). subst. unfold tk_esdef, braced. cbn [sysdef_ok es_desc es_dirs es_roots]. split; [now flat | auto].
Qed.
Lemma next_if_name_matches_inv v ts r : next_if_name_matches v ts = Some r -> ts = TkName v :: r.
Proof. destruct ts as [|[] ts]; cbn; try discriminate. destruct (teqb n v) eqn:E; [|discriminate]. apply teqb_eq in E. intros [= <-]. now subst. Qed.
Lemma parse_ddef_sound ts d r : parse_ddef ts = POk d r -> exists lead, ts = tk_ddef lead d ++ r /\ sysdef_ok (SysDirective d).
Proof.
  intros H. unfold parse_ddef in H. desc H dd r0 E0. bi H u r1 E1. bi H u' r2 E2. bi H n r3 E3. bi H args r4 E4.
  remember (match next_if_name_matches (tx "repeatable") r4 with Some r => (true, r) | None => (false, r4) end) as q eqn:Q. destruct q as [rep r5].
  assert (K : r4 = (if rep then [TkName (tx "repeatable")] else []) ++ r5).
  { destruct (next_if_name_matches (tx "repeatable") r4) eqn:E; injection Q as -> ->; [now apply next_if_name_matches_inv in E | reflexivity]. }
  clear Q. bi H u'' r6 E6. bi H ls r7 E7. injection H as <- <-.
  apply expect_name_value_inv in E1. apply expect_punct_inv in E2. apply expect_name_inv in E3. apply parse_args_def_sound in E4. destruct E4 as (-> & O4). apply expect_name_value_inv in E6.
  apply (parse_sep_list_sound _ _ _ parse_location_sound) in E7. destruct E7 as (NE & lead & ->). exists lead. subst. unfold tk_ddef.
  cbn [sysdef_ok dd_desc dd_name dd_args dd_repeatable dd_locs dd_builtin]. split; [now flat | auto].
Qed.

Ltac kw := cbn [expect_name_value]; rewrite teqb_refl; cbn [bind expect_name].
Lemma parse_tdef_complete lead t r : sysdef_ok (SysType t) -> ends r -> try_sysdef (tk_tdef lead t ++ r) = Some (POk (SysType t) r).
Proof.
  intros O F.
  assert (I : forall d n l, next_identifier (tk_desc d ++ TkName n :: l) = Some n) by (intros [] n l; reflexivity).
  destruct t as [b|s|o|i|e|u|i]; cbn [sysdef_ok] in O; [destruct O| | | | | |]; cbn [tk_tdef]; flat; unfold try_sysdef; rewrite I.
  - change (Some (as_type (parse_scalar (tk_desc (sc_desc s) ++ TkName (tx "scalar") :: TkName (sc_name s) :: tk_directives (sc_dirs s) ++ r))) = Some (POk (SysType (DScalar s)) r)).
    unfold parse_scalar. rewrite next_if_string_ok. kw. rewrite parse_directives_complete; [|exact O|ends F|ends F]. destruct s. reflexivity.
  - destruct o as [n dd is_ ds fs b]. cbn [ob_desc ob_name ob_ifaces ob_dirs ob_fields ob_builtin] in *. destruct O as (O1 & O2 & ->).
    match goal with |- _ = ?rhs => change (Some (as_type (parse_object (tk_desc dd ++ TkName (tx "type") :: TkName n :: tk_implements lead is_ ++ tk_directives ds ++ braced tk_fdef (written_fields fs) ++ r))) = rhs) end.
    unfold parse_object. rewrite next_if_string_ok. kw. rewrite parse_implements_complete; [|apply next_if_punct_directives; [discriminate | reflexivity] | apply peek_name_directives; reflexivity]. cbn [bind].
    rewrite parse_directives_complete; [|exact O1|reflexivity|reflexivity]. cbn [bind]. now rewrite parse_fdefs_complete.
  - destruct i as [n dd ds fs]. cbn [io_desc io_name io_dirs io_fields] in *. destruct O as (O1 & O2 & NE).
    match goal with |- _ = ?rhs => change (Some (as_type (parse_input (tk_desc dd ++ TkName (tx "input") :: TkName n :: tk_directives ds ++ braced tk_ivd fs ++ r))) = rhs) end.
    unfold parse_input. rewrite next_if_string_ok. kw. rewrite parse_directives_complete; [|exact O1|reflexivity|reflexivity]. cbn [bind].
    change parse_input_fields with (parse_braced parse_ivd). now rewrite (parse_braced_complete _ _ _ parse_ivd_complete ivd_head).
  - destruct e as [n dd ds vs b]. cbn [en_desc en_name en_dirs en_values en_builtin] in *. destruct O as (O1 & O2 & NE & ->).
    match goal with |- _ = ?rhs => change (Some (as_type (parse_enum (tk_desc dd ++ TkName (tx "enum") :: TkName n :: tk_directives ds ++ braced tk_evd vs ++ r))) = rhs) end.
    unfold parse_enum. rewrite next_if_string_ok. kw. rewrite parse_directives_complete; [|exact O1|reflexivity|reflexivity]. cbn [bind].
    change parse_evds with (parse_braced parse_evd). now rewrite (parse_braced_complete _ _ _ parse_evd_complete evd_head).
  - destruct u as [n dd ds ms fs]. cbn [un_desc un_name un_dirs un_members un_fields] in *. destruct O as (O1 & NE & ->).
    match goal with |- _ = ?rhs => change (Some (as_type (parse_union (tk_desc dd ++ TkName (tx "union") :: TkName n :: tk_directives ds ++ P PEquals :: tk_sep_list lead PPipe tk_name ms ++ r))) = rhs) end.
    unfold parse_union. rewrite next_if_string_ok. kw. rewrite parse_directives_complete; [|exact O1|reflexivity|reflexivity]. cbn [bind]. rewrite expect_punct_ok. cbn [bind].
    unfold parse_members. rewrite parse_sep_list_complete; [reflexivity | apply expect_name_complete | reflexivity | exact NE | apply next_if_punct_ends; [exact F|discriminate|discriminate]].
  - destruct i as [n dd is_ ds fs]. cbn [if_desc if_name if_ifaces if_dirs if_fields] in *. destruct O as (O1 & O2).
    match goal with |- _ = ?rhs => change (Some (as_type (parse_interface (tk_desc dd ++ TkName (tx "interface") :: TkName n :: tk_implements lead is_ ++ tk_directives ds ++ braced tk_fdef (written_fields fs) ++ r))) = rhs) end.
    unfold parse_interface. rewrite next_if_string_ok. kw. rewrite parse_implements_complete; [|apply next_if_punct_directives; [discriminate | reflexivity] | apply peek_name_directives; reflexivity]. cbn [bind].
    rewrite parse_directives_complete; [|exact O1|reflexivity|reflexivity]. cbn [bind]. now rewrite parse_fdefs_complete.
Qed.
Lemma try_sysdef_complete lead x r : sysdef_ok x -> ends r -> try_sysdef (tk_sysdef lead x ++ r) = Some (POk x r).
Proof.
  intros O F.
  assert (I : forall d n l, next_identifier (tk_desc d ++ TkName n :: l) = Some n) by (intros [] n l; reflexivity).
  destruct x as [e|d|t]; [| |now apply parse_tdef_complete]; cbn [tk_sysdef].
  - destruct e as [dd ds l]. unfold tk_esdef. cbn [sysdef_ok es_desc es_dirs es_roots] in *. destruct O as (O & NE). flat. unfold try_sysdef. rewrite I.
    match goal with |- _ = ?rhs => change (Some (do (e, r) <- parse_esdef (tk_desc dd ++ TkName (tx "schema") :: tk_directives ds ++ braced tk_root l ++ r); POk (SysSchema e) r) = rhs) end.
    unfold parse_esdef. rewrite next_if_string_ok. kw. rewrite parse_directives_complete; [|exact O|reflexivity|reflexivity]. cbn [bind].
    assert (T : forallb (fun _ : optype * name => true) l = true) by (apply forallb_forall; reflexivity).
    pose proof (parse_braced_complete _ _ _ parse_root_complete root_head l r T NE) as K. unfold parse_braced in K. unfold braced in *. cbn [app] in *. rewrite expect_punct_ok in *. cbn [bind] in *. now rewrite K.
  - destruct d as [n dd args rep ls b]. unfold tk_ddef. cbn [sysdef_ok dd_desc dd_name dd_args dd_repeatable dd_locs dd_builtin] in *. destruct O as (O & NE & ->). flat. unfold try_sysdef. rewrite I.
    match goal with |- _ = ?rhs => change (Some (do (d, r) <- parse_ddef (tk_desc dd ++ TkName (tx "directive") :: P PAt :: TkName n :: tk_args_def args ++ (if rep then [TkName (tx "repeatable")] else []) ++ TkName (tx "on") :: tk_sep_list lead PPipe tk_location ls ++ r); POk (SysDirective d) r) = rhs) end.
    unfold parse_ddef. rewrite next_if_string_ok. cbn [expect_name_value]. rewrite teqb_refl. cbn [bind]. rewrite expect_punct_ok. cbn [bind expect_name].
    rewrite parse_args_def_complete; [|exact O|destruct rep; reflexivity]. cbn [bind].
    replace (match next_if_name_matches _ _ with Some r0 => (true, r0) | None => _ end) with (rep, TkName (tx "on") :: tk_sep_list lead PPipe tk_location ls ++ r) by (destruct rep; reflexivity).
    kw. unfold parse_locations. rewrite parse_sep_list_complete; [reflexivity | apply parse_location_complete | reflexivity | exact NE | apply next_if_punct_ends; [exact F|discriminate|discriminate]].
Qed.
Lemma as_type_ok x y r : as_type x = POk y r -> exists t, x = POk t r /\ y = SysType t.
Proof. unfold as_type. intros H. bi H t r1 E. injection H as <- <-. eauto. Qed.
Lemma try_sysdef_sound ts x r : try_sysdef ts = Some (POk x r) -> exists lead, ts = tk_sysdef lead x ++ r /\ sysdef_ok x.
Proof.
  unfold try_sysdef. destruct (next_identifier ts) as [n|]; [|discriminate].
  destruct (teqb n _); [intros [= H]; apply as_type_ok in H; destruct H as (t & H & ->); now apply parse_scalar_sound|].
  destruct (teqb n _); [intros [= H]; apply as_type_ok in H; destruct H as (t & H & ->); now apply parse_object_sound|].
  destruct (teqb n _); [intros [= H]; apply as_type_ok in H; destruct H as (t & H & ->); now apply parse_input_sound|].
  destruct (teqb n _); [intros [= H]; apply as_type_ok in H; destruct H as (t & H & ->); now apply parse_enum_sound|].
  destruct (teqb n _); [intros [= H]; apply as_type_ok in H; destruct H as (t & H & ->); now apply parse_union_sound|].
  destruct (teqb n _); [intros [= H]; apply as_type_ok in H; destruct H as (t & H & ->); now apply parse_interface_sound|].
  destruct (teqb n _); [intros [= H]; bi H e r1 E; injection H as <- <-; exists false; now apply parse_esdef_sound|].
  destruct (teqb n _); [intros [= H]; bi H e r1 E; injection H as <- <-; now apply parse_ddef_sound|]. discriminate.
Qed.

(** *** Definitions consume something even when they fail *)
Definition strict {A} (ts : list token) (x : presult A) : Prop :=
  match x with POk _ r => length r < length ts | PErr e r => e <> PEFuel /\ e <> PEPanic /\ e <> PEEmpty /\ length r < length ts end.
Lemma strict_head {A} v ts (k : option text -> list token -> presult A) : next_identifier ts = Some v ->
  (forall d r, safe 0 r (k d r)) -> strict ts (let '(d, r0) := next_if_string ts in do (u, r1) <- expect_name_value v r0; k d r1).
Proof.
  intros E H.
  assert (K : exists d r, next_if_string ts = (d, TkName v :: r) /\ length r < length ts).
  { destruct ts as [|[p|n|n|z|b|s] ts]; try discriminate; [injection E as ->; exists None, ts; cbn; split; [reflexivity | lia]|].
    destruct ts as [|[p|n|n|z|b|s'] ts]; try discriminate. injection E as ->. exists (Some s), ts. cbn. split; [reflexivity | lia]. }
  destruct K as (d & r & -> & L). cbn [expect_name_value]. rewrite teqb_refl. cbn [bind]. specialize (H d r). destruct (k d r); cbn [safe strict] in *; intuition lia.
Qed.
Lemma strict_as_type ts x : strict ts x -> strict ts (as_type x).
Proof. unfold as_type. destruct x; cbn; auto. Qed.
Ltac sb := apply (safe_bind 0); [first [apply (safe_weaken 1), safe_expect_name; lia | apply (safe_weaken 1), safe_expect_punct; lia | apply (safe_weaken 1), safe_expect_name_value; lia
  | apply safe_directives | apply safe_implements | apply safe_args_def
  | apply (safe_weaken 1), safe_fdefs; lia | apply (safe_weaken 1), (safe_braced _ safe_ivd); lia | apply (safe_weaken 1), (safe_braced _ safe_evd); lia
  | apply (safe_weaken 1), (safe_sep_list _ _ safe_expect_name); lia | apply (safe_weaken 1), (safe_sep_list _ _ safe_location); lia]
  | intros]; cbn [Nat.sub].
Lemma try_sysdef_strict ts x : try_sysdef ts = Some x -> strict ts x.
Proof.
  unfold try_sysdef. destruct (next_identifier ts) as [n|] eqn:E; [|discriminate].
  destruct (teqb_spec n (tx "scalar")) as [->|_]; [intros [= <-]; apply strict_as_type, strict_head; [exact E|]; intros; repeat sb; apply safe_ok|].
  destruct (teqb_spec n (tx "type")) as [->|_]; [intros [= <-]; apply strict_as_type, strict_head; [exact E|]; intros; repeat sb; apply safe_ok|].
  destruct (teqb_spec n (tx "input")) as [->|_]; [intros [= <-]; apply strict_as_type, strict_head; [exact E|]; intros; repeat sb; apply safe_ok|].
  destruct (teqb_spec n (tx "enum")) as [->|_]; [intros [= <-]; apply strict_as_type, strict_head; [exact E|]; intros; repeat sb; apply safe_ok|].
  destruct (teqb_spec n (tx "union")) as [->|_]; [intros [= <-]; apply strict_as_type, strict_head; [exact E|]; intros; repeat sb; apply safe_ok|].
  destruct (teqb_spec n (tx "interface")) as [->|_]; [intros [= <-]; apply strict_as_type, strict_head; [exact E|]; intros; repeat sb; apply safe_ok|].
  destruct (teqb_spec n (tx "schema")) as [->|_].
  { intros [= <-]. assert (K : strict ts (parse_esdef ts)).
    { apply strict_head; [exact E|]. intros. sb. sb. apply (safe_bind 0); [|intros; apply safe_ok]. apply (safe_weaken 1); [lia|]. apply safe_many1; [|lia]. intros. apply safe_root. }
    destruct (parse_esdef ts); exact K. }
  destruct (teqb_spec n (tx "directive")) as [->|_]; [|discriminate].
  intros [= <-]. assert (K : strict ts (parse_ddef ts)).
  { apply strict_head; [exact E|]. intros. sb. sb. sb.
    match goal with |- context [next_if_name_matches ?w ?r] => destruct (next_if_name_matches w r) as [r'|] eqn:En end.
    - apply next_if_name_matches_inv in En. match goal with |- safe _ _ ?x => assert (K : safe 0 r' x) by (repeat sb; apply safe_ok) end.
      match goal with |- safe _ _ ?x => destruct x end; cbn [safe] in *; match goal with H : _ = _ :: r' |- _ => rewrite H end; cbn [length]; intuition lia.
    - repeat sb. apply safe_ok. }
  destruct (parse_ddef ts); exact K.
Qed.

(** ** Documents *)
Definition extend (d : defdoc) (xs : list sysdef) : defdoc :=
  {| df_schemas := df_schemas d ++ sys_schemas xs; df_ddefs := df_ddefs d ++ sys_ddefs xs; df_types := df_types d ++ sys_types xs |}.
Lemma extend_nil d : extend d [] = d.
Proof. destruct d. unfold extend. cbn. now rewrite !app_nil_r. Qed.
Lemma extend_cons d x xs : extend d (x :: xs) = extend (push d x) xs.
Proof. destruct x; unfold extend, push; cbn; now rewrite <- app_assoc. Qed.
Notation written xs := (concat (map (fun p => tk_sysdef (fst p) (snd p)) xs)).
Lemma sysdoc_loop_errs fuel : forall ts d errs b d' errs', sysdoc_loop fuel ts d errs b = (d', errs') -> exists l, errs' = errs ++ l.
Proof.
  induction fuel as [|fuel IH]; intros ts d errs b d' errs'; cbn [sysdoc_loop].
  - intros [= <- <-]. eauto.
  - destruct (try_sysdef ts) as [[x r|e r]|].
    + apply IH.
    + intros H. apply IH in H. destruct b; [exact H|]. destruct H as (l & ->). rewrite <- app_assoc. eauto.
    + destruct ts as [|t ts].
      * intros [= <- <-]. exists []. now rewrite app_nil_r.
      * intros H. apply IH in H. destruct b; [exact H|]. destruct H as (l & ->). rewrite <- app_assoc. eauto.
Qed.
Lemma sysdoc_loop_sound fuel : forall ts d errs b d', sysdoc_loop fuel ts d errs b = (d', []) -> b = false ->
  exists xs, ts = written xs /\ Forall sysdef_ok (map snd xs) /\ d' = extend d (map snd xs).
Proof.
  induction fuel as [|fuel IH]; intros ts d errs b d' H ->; cbn [sysdoc_loop] in H; [apply (f_equal snd) in H; cbn in H; destruct errs; discriminate|].
  assert (Z : forall r e, sysdoc_loop fuel r d (errs ++ [e]) true <> (d', [])).
  { intros r e H'. apply sysdoc_loop_errs in H'. destruct H' as (l & H'). destruct errs; discriminate. }
  destruct (try_sysdef ts) as [[x r|e r]|] eqn:E.
  - apply IH in H; [|reflexivity]. destruct H as (xs & -> & F & ->). apply try_sysdef_sound in E. destruct E as (lead & -> & O).
    exists ((lead, x) :: xs). cbn [map snd fst concat]. rewrite extend_cons. repeat split. now constructor.
  - now apply Z in H.
  - destruct ts as [|t ts]; [|now apply Z in H]. injection H as <- H. exists []. cbn. rewrite extend_nil. auto.
Qed.
Lemma tk_sysdef_head lead x : sysdef_ok x -> exists d n l, tk_sysdef lead x = tk_desc d ++ TkName n :: l.
Proof. destruct x as [e|d|[]]; cbn [sysdef_ok tk_sysdef tk_tdef]; unfold tk_esdef, tk_ddef; eauto. intros []. Qed.
Lemma written_ends xs : Forall sysdef_ok (map snd xs) -> ends (written xs).
Proof.
  destruct xs as [|[lead x] xs]; intros F; [apply ends_nil|]. cbn [map snd fst concat] in *. apply Forall_inv in F. destruct (tk_sysdef_head lead x F) as (d & n & l & ->). rewrite <- app_assoc. apply ends_desc.
Qed.
Lemma written_length xs : Forall sysdef_ok (map snd xs) -> length xs <= length (written xs).
Proof.
  induction xs as [|[lead x] xs IH]; intros F; [cbn; lia|]. cbn [map snd fst concat] in *. inversion_clear F as [|? ? O F']. rewrite app_length.
  destruct (tk_sysdef_head lead x O) as (d & n & l & ->). rewrite app_length. cbn [length]. specialize (IH F'). lia.
Qed.
Lemma sysdoc_loop_complete xs : forall fuel d, Forall sysdef_ok (map snd xs) -> length xs < fuel ->
  sysdoc_loop fuel (written xs) d [] false = (extend d (map snd xs), []).
Proof.
  induction xs as [|[lead x] xs IH]; intros fuel d F L; (destruct fuel as [|fuel]; [cbn in L; lia|]); cbn [sysdoc_loop map concat fst snd].
  - cbn. now rewrite extend_nil.
  - cbn [map snd] in F. inversion_clear F as [|? ? O F']. rewrite try_sysdef_complete; [|exact O|now apply written_ends]. rewrite extend_cons.
    rewrite IH; [reflexivity | exact F' | cbn in L; lia].
Qed.
Lemma sysdoc_loop_real fuel : forall ts d errs b d' errs', length ts < fuel -> sysdoc_loop fuel ts d errs b = (d', errs') -> Forall real errs -> Forall real errs'.
Proof.
  induction fuel as [|fuel IH]; intros ts d errs b d' errs' L H F; [lia|]. cbn [sysdoc_loop] in H.
  destruct (try_sysdef ts) as [x|] eqn:E.
  - pose proof (try_sysdef_strict _ _ E) as K. destruct x as [x r|e r]; cbn [strict] in K.
    + eapply IH; [|exact H|exact F]. lia.
    + eapply IH; [|exact H|]; [lia|]. destruct b; [exact F|]. apply Forall_app. split; [exact F|]. constructor; [unfold real; intuition | constructor].
  - destruct ts as [|t ts].
    + injection H as <- <-. exact F.
    + cbn [length] in L. eapply IH; [|exact H|]; [lia|]. destruct b; [exact F|]. apply Forall_app. split; [exact F|]. repeat constructor; discriminate.
Qed.
