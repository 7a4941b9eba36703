(** Forgetting the positions gives the definition parser of [DefParser.v]; what the parser leaves is a rest of what it was given. *)
From Coq Require Import String Lia.
From Verif Require Import Base Ast Lexer Parser Location DefParser ParserAt DefParserAt ParserSpec ParserAtSpec DefParserAtSpec ParserAtProofs ParserErrorProofs ParserErrorAtProofs.

Ltac fb L := eapply forget_bind; [apply L|].
Ltac fbu L := eapply (forget_bind (fun _ => tt)); [apply L|].
Lemma forget_string ts : next_if_string (map fst ts) = (plain_desc (fst (next_if_string_at ts)), map fst (snd (next_if_string_at ts))).
Proof. destruct ts as [|[[] ?] r]; reflexivity. Qed.
Lemma forget_matches v ts : next_if_name_matches v (map fst ts) = option_map (map fst) (next_if_name_matches_at v ts).
Proof. destruct ts as [|[[] ?] r]; cbn; try reflexivity. destruct (teqb _ _); reflexivity. Qed.
Lemma forget_dtype : forall fuel ts, forget plain_type (parse_dtype_at fuel ts) = parse_tref fuel (map fst ts).
Proof.
  induction fuel as [|fuel IH]; intros ts; cbn [parse_dtype_at parse_tref]; [reflexivity|]. rewrite forget_next.
  destruct (next_if_punct_at POpenSquare ts) as [[o r]|]; cbn [option_map snd].
  - fb IH. intros inner r1. fbu forget_punct. intros c r2. rewrite forget_bang.
    destruct (parse_bang_at r2) as [bang r3]. reflexivity.
  - rewrite forget_next_name. destruct (next_if_name_at ts) as [[n r]|]; cbn [option_map fst snd].
    + rewrite forget_bang. destruct (parse_bang_at r) as [bang r1]. reflexivity.
    + apply forget_unexpected.
Qed.
Lemma forget_all_directives ts : forget plain_directives (all_directives_at ts) = parse_directives true (map fst ts).
Proof.
  unfold all_directives_at, parse_directives. rewrite map_length, <- (forget_many_at plain_directive (parse_directive_at true) (parse_directive true) (forget_directive true)).
  destruct (many_at_at _ _ _); reflexivity.
Qed.
Lemma forget_ivd ts : forget plain_ivd (parse_ivd_at ts) = parse_ivd (map fst ts).
Proof.
  unfold parse_ivd_at, parse_ivd. rewrite forget_string. destruct (next_if_string_at ts) as [d r0]. cbn [fst snd].
  fb forget_name. intros n r1. fbu forget_punct. intros u r2. eapply forget_bind; [rewrite map_length; apply forget_dtype|]. intros t r3.
  fb forget_default. intros df r4. fb forget_all_directives. reflexivity.
Qed.
Lemma forget_enclosed {A B} (f : A -> B) item item' o c ts : (forall ts, forget f (item ts) = item' (map fst ts)) ->
  forget (fun l => map f (fst l)) (enclosed_at item o c ts) = bind (expect_punct o (map fst ts)) (fun _ r => many1 item' c (S (length r)) r).
Proof.
  intros H. unfold enclosed_at. fbu forget_punct. intros u r. rewrite map_length, <- (forget_many1 f item item' c H). destruct (many1_at _ _ _ _); reflexivity.
Qed.
Lemma forget_ivds_args ts : forget plain_ivds (parse_ivds_args_at ts) = parse_ivds_args (map fst ts).
Proof.
  unfold parse_ivds_args_at, parse_ivds_args. rewrite forget_peek. destruct (peek_punct_at POpenRound ts); [|reflexivity].
  rewrite <- (forget_enclosed plain_ivd parse_ivd_at parse_ivd POpenRound PCloseRound ts forget_ivd). destruct (enclosed_at _ _ _ _); reflexivity.
Qed.
Lemma forget_fdef ts : forget plain_fdef (parse_fdef_at ts) = parse_fdef (map fst ts).
Proof.
  unfold parse_fdef_at, parse_fdef. rewrite forget_string. destruct (next_if_string_at ts) as [d r0]. cbn [fst snd].
  fb forget_name. intros n r1. fb forget_ivds_args. intros a r2. fbu forget_punct. intros u r3. eapply forget_bind; [rewrite map_length; apply forget_dtype|]. intros t r4.
  fb forget_directives. reflexivity.
Qed.
Lemma forget_fdefs ts : forget (fun l => plain_fdefs (fst l)) (parse_fdefs_at ts) = parse_fdefs (map fst ts).
Proof.
  unfold parse_fdefs, parse_fdefs_at, enclosed_at. fbu forget_punct. intros u r.
  rewrite map_length, <- (forget_many1 plain_fdef parse_fdef_at parse_fdef PCloseBrace forget_fdef). destruct (many1_at _ _ _ _); reflexivity.
Qed.
Lemma forget_evd ts : forget plain_evd (parse_evd_at ts) = parse_evd (map fst ts).
Proof.
  unfold parse_evd_at, parse_evd. rewrite forget_string. destruct (next_if_string_at ts) as [d r0]. cbn [fst snd].
  fb forget_name. intros n r1. destruct (_ || _); [reflexivity|]. fb forget_directives. reflexivity.
Qed.
Lemma forget_evds ts : forget (fun l => map plain_evd (fst l)) (parse_evds_at ts) = parse_evds (map fst ts).
Proof. apply forget_enclosed, forget_evd. Qed.
Lemma forget_input_fields ts : forget (fun l => map plain_ivd (fst l)) (parse_input_fields_at ts) = parse_input_fields (map fst ts).
Proof. apply forget_enclosed, forget_ivd. Qed.
Lemma forget_many_sep {A B} (f : A -> B) item item' sep : (forall ts, forget f (item ts) = item' (map fst ts)) ->
  forall fuel ts, forget (map f) (many_sep_at item sep fuel ts) = many_sep item' sep fuel (map fst ts).
Proof.
  intros H. induction fuel as [|fuel IH]; intros ts; cbn [many_sep_at many_sep]; [reflexivity|]. rewrite forget_next.
  destruct (next_if_punct_at sep ts) as [[sp r]|]; [|reflexivity]. cbn [option_map snd]. fb H. intros a r1. fb IH. reflexivity.
Qed.
Lemma forget_sep_list {A B} (f : A -> B) item item' sep ts : (forall ts, forget f (item ts) = item' (map fst ts)) ->
  forget (map f) (parse_sep_list_at item sep ts) = parse_sep_list item' sep (map fst ts).
Proof.
  intros H. unfold parse_sep_list_at, parse_sep_list. rewrite forget_next.
  replace (match option_map (fun x => map fst (snd x)) (next_if_punct_at sep ts) with Some r => r | None => map fst ts end)
    with (map fst (match next_if_punct_at sep ts with Some (_, r) => r | None => ts end)) by (destruct (next_if_punct_at sep ts) as [[]|]; reflexivity).
  fb H. intros a r1. eapply forget_bind; [rewrite map_length; apply forget_many_sep, H|]. reflexivity.
Qed.
Lemma forget_implements ts : forget (map fst) (parse_implements_at ts) = parse_implements (map fst ts).
Proof.
  unfold parse_implements_at, parse_implements. rewrite forget_peek_name. destruct (peek_name_matches_at _ ts); [|reflexivity].
  fbu forget_name_value. intros u r. apply forget_sep_list, forget_name.
Qed.
Lemma forget_location ts : forget fst (parse_location_at ts) = parse_location (map fst ts).
Proof. unfold parse_location_at, parse_location. fb forget_name. intros n r. destruct (dloc_of (fst n)); reflexivity. Qed.
Lemma forget_scalar ts : forget plain_tdef (parse_scalar_at ts) = parse_scalar (map fst ts).
Proof.
  unfold parse_scalar_at, parse_scalar. rewrite forget_string. destruct (next_if_string_at ts) as [d r0]. cbn [fst snd].
  fbu forget_name_value. intros u r1. fb forget_name. intros n r2. fb forget_directives. reflexivity.
Qed.
Lemma forget_object ts : forget plain_tdef (parse_object_at ts) = parse_object (map fst ts).
Proof.
  unfold parse_object_at, parse_object. rewrite forget_string. destruct (next_if_string_at ts) as [d r0]. cbn [fst snd].
  fbu forget_name_value. intros u r1. fb forget_name. intros n r2. fb forget_implements. intros is_ r3. fb forget_directives. intros ds r4. fb forget_fdefs. reflexivity.
Qed.
Lemma forget_interface ts : forget plain_tdef (parse_interface_at ts) = parse_interface (map fst ts).
Proof.
  unfold parse_interface_at, parse_interface. rewrite forget_string. destruct (next_if_string_at ts) as [d r0]. cbn [fst snd].
  fbu forget_name_value. intros u r1. fb forget_name. intros n r2. fb forget_implements. intros is_ r3. fb forget_directives. intros ds r4. fb forget_fdefs. reflexivity.
Qed.
Lemma forget_union ts : forget plain_tdef (parse_union_at ts) = parse_union (map fst ts).
Proof.
  unfold parse_union_at, parse_union. rewrite forget_string. destruct (next_if_string_at ts) as [d r0]. cbn [fst snd].
  fbu forget_name_value. intros u r1. fb forget_name. intros n r2. fb forget_directives. intros ds r3. fbu forget_punct. intros u' r4.
  eapply forget_bind; [apply forget_sep_list, forget_name|]. reflexivity.
Qed.
Lemma forget_input ts : forget plain_tdef (parse_input_at ts) = parse_input (map fst ts).
Proof.
  unfold parse_input_at, parse_input. rewrite forget_string. destruct (next_if_string_at ts) as [d r0]. cbn [fst snd].
  fbu forget_name_value. intros u r1. fb forget_name. intros n r2. fb forget_directives. intros ds r3. fb forget_input_fields. reflexivity.
Qed.
Lemma forget_enum ts : forget plain_tdef (parse_enum_at ts) = parse_enum (map fst ts).
Proof.
  unfold parse_enum_at, parse_enum. rewrite forget_string. destruct (next_if_string_at ts) as [d r0]. cbn [fst snd].
  fbu forget_name_value. intros u r1. fb forget_name. intros n r2. fb forget_directives. intros ds r3. fb forget_evds. reflexivity.
Qed.
Lemma forget_ddef ts : forget plain_ddef (parse_ddef_at ts) = parse_ddef (map fst ts).
Proof.
  unfold parse_ddef_at, parse_ddef. rewrite forget_string. destruct (next_if_string_at ts) as [d r0]. cbn [fst snd].
  fbu forget_name_value. intros u r1. fbu forget_punct. intros u' r2. fb forget_name. intros n r3. fb forget_ivds_args. intros a r4. rewrite forget_matches.
  destruct (next_if_name_matches_at (tx "repeatable") r4) as [r5|]; cbn [option_map]; fbu forget_name_value; intros u'' r6;
    (eapply forget_bind; [apply forget_sep_list, forget_location|]; reflexivity).
Qed.
Lemma forget_root ts : forget (fun p => (fst p, fst (snd p))) (parse_root_at ts) = parse_root (map fst ts).
Proof.
  unfold parse_root_at, parse_root. fb forget_name. intros w r1. destruct (optype_of (fst w)); [|reflexivity]. fbu forget_punct. intros u r2. fb forget_name. reflexivity.
Qed.
Lemma forget_esdef ts : forget plain_esdef (parse_esdef_at ts) = parse_esdef (map fst ts).
Proof.
  unfold parse_esdef_at, parse_esdef, enclosed_at. rewrite forget_string. destruct (next_if_string_at ts) as [d r0]. cbn [fst snd].
  fbu forget_name_value. intros u r1. fb forget_directives. intros ds r2. destruct (expect_punct_at POpenBrace r2) as [o r3|e r3] eqn:E.
  - pose proof (forget_punct POpenBrace r2) as F. rewrite E in F. cbn in F. rewrite <- F. cbn [lbind bind].
    rewrite map_length, <- (forget_many1 _ parse_root_at parse_root PCloseBrace forget_root). destruct (many1_at _ _ _ _); reflexivity.
  - pose proof (forget_punct POpenBrace r2) as F. rewrite E in F. cbn in F. rewrite <- F. reflexivity.
Qed.
Lemma forget_identifier ts : next_identifier (map fst ts) = next_identifier_at ts.
Proof. destruct ts as [|[[] ?] [|[[] ?] r]]; reflexivity. Qed.
Lemma forget_as_type x x' : forget plain_tdef x = x' -> forget plain_sysdef (as_type_at x) = as_type x'.
Proof. intros <-. destruct x; reflexivity. Qed.
Lemma forget_try_sysdef ts : try_sysdef (map fst ts) = option_map (forget plain_sysdef) (try_sysdef_at ts).
Proof.
  unfold try_sysdef, try_sysdef_at. rewrite forget_identifier. destruct (next_identifier_at ts) as [n|]; [|reflexivity].
  repeat (match goal with |- (if ?b then _ else _) = _ => destruct b end;
    [cbn [option_map]; f_equal; symmetry; try first [apply forget_as_type, forget_scalar|apply forget_as_type, forget_object|apply forget_as_type, forget_input|apply forget_as_type, forget_enum
      |apply forget_as_type, forget_union|apply forget_as_type, forget_interface|fb forget_esdef; reflexivity|fb forget_ddef; reflexivity]|]).
  reflexivity.
Qed.
Lemma forget_sysdoc_loop fuel : forall ts d d0 errs b, let '(d', errs') := sysdoc_loop_at fuel ts d errs b in
  sysdoc_loop fuel (map fst ts) (fold_left push (map plain_sysdef d) d0) (map plain_err errs) b = (fold_left push (map plain_sysdef d') d0, map plain_err errs').
Proof.
  induction fuel as [|fuel IH]; intros ts d d0 errs b; cbn [sysdoc_loop_at sysdoc_loop]; [rewrite map_app; reflexivity|].
  rewrite forget_try_sysdef. destruct (try_sysdef_at ts) as [[x r|e r]|]; cbn [option_map forget].
  - specialize (IH r (d ++ [x]) d0 errs false). rewrite map_app, fold_left_app in IH. exact IH.
  - specialize (IH r d d0 (if b then errs else errs ++ [e]) true). replace (if b then map plain_err errs else map plain_err errs ++ [plain_err e]) with (map plain_err (if b then errs else errs ++ [e])); [exact IH|].
    destruct b; [reflexivity|]. rewrite map_app. reflexivity.
  - destruct ts as [|t r]; [reflexivity|]. cbn [map]. specialize (IH r d d0 (if b then errs else errs ++ [LEToken t]) true).
    replace (if b then map plain_err errs else map plain_err errs ++ [PEToken (fst t)]) with (map plain_err (if b then errs else errs ++ [LEToken t])); [exact IH|].
    destruct b; [reflexivity|]. rewrite map_app. reflexivity.
Qed.

(** ** [tame]: what is left is a rest of the tokens, errors carry the last token that was read *)
#[local] Hint Resolve tame_ok tame_fuel tame_token tame_name tame_name_value tame_punct tame_unexpected tame_many0 tame_many1 tame_many_at tame_directive tame_directives tame_default : tame.
Lemma string_inv ts : exists mid, ts = mid ++ snd (next_if_string_at ts).
Proof. destruct ts as [|[[] ?] r]; try (exists []; reflexivity). eexists [_]. reflexivity. Qed.
Lemma tame_string {A} ts (f : ldesc -> list ltok -> lresult A) : (forall d r, tame r (f d r)) -> tame ts (let '(d, r) := next_if_string_at ts in f d r).
Proof. intros H. destruct (string_inv ts) as (mid & E). destruct (next_if_string_at ts) as [d r]. cbn in E. subst. apply tame_app, H. Qed.
Ltac ts_ := apply tame_string; intros ? ?.
Lemma tame_dtype fuel : forall ts, tame ts (parse_dtype_at fuel ts).
Proof.
  induction fuel as [|fuel IH]; intros ts; cbn [parse_dtype_at]; [tm|]. destruct (next_if_punct_at POpenSquare ts) as [[o r]|] eqn:E.
  - apply next_inv in E. destruct E as (t & ->). apply tame_cons. tm. destruct (bang_inv r1) as (mid & E). destruct (parse_bang_at r1) as [bang r3]. cbn in E. subst. apply tame_app. tm.
  - destruct ts as [|[[] sp] r]; cbn [next_if_name_at]; try solve [tm]. apply tame_cons. destruct (bang_inv r) as (mid & E'). destruct (parse_bang_at r) as [bang r1]. cbn in E'. subst. apply tame_app. tm.
Qed.
#[local] Hint Resolve tame_dtype : tame.
Lemma tame_all_directives ts : tame ts (all_directives_at ts).
Proof. unfold all_directives_at. tm. Qed.
#[local] Hint Resolve tame_all_directives : tame.
Lemma tame_ivd ts : tame ts (parse_ivd_at ts).
Proof. unfold parse_ivd_at. ts_. tm. Qed.
#[local] Hint Resolve tame_ivd : tame.
Lemma tame_enclosed {A} (item : list ltok -> lresult A) o c ts : (forall ts, tame ts (item ts)) -> tame ts (enclosed_at item o c ts).
Proof. intros H. unfold enclosed_at. tm. Qed.
#[local] Hint Resolve tame_enclosed : tame.
Lemma tame_ivds_args ts : tame ts (parse_ivds_args_at ts).
Proof. unfold parse_ivds_args_at. destruct (peek_punct_at _ _); tm. Qed.
#[local] Hint Resolve tame_ivds_args : tame.
Lemma tame_fdef ts : tame ts (parse_fdef_at ts).
Proof. unfold parse_fdef_at. ts_. tm. Qed.
#[local] Hint Resolve tame_fdef : tame.
Lemma tame_fdefs ts : tame ts (parse_fdefs_at ts).
Proof. unfold parse_fdefs_at. tm. Qed.
#[local] Hint Resolve tame_fdefs : tame.
(** a name that is read, and an error on that name *)
Lemma tame_name_then {A} ts (f : lname -> list ltok -> lresult A) :
  (forall n r, match f n r with LErr e r' => tame r (f n r) \/ (lerr_token e = Some (TkName (fst n), snd n) /\ r' = r) | _ => tame r (f n r) end) -> tame ts (lbind (expect_name_at ts) f).
Proof.
  intros H. pose proof (tame_name ts) as T. destruct ts as [|[[] sp] r]; cbn [expect_name_at lbind fst snd] in *; try exact T.
  specialize (H (n, sp) r). destruct (f (n, sp) r) as [a r'|e r']; [apply tame_cons, H|]. destruct H as [H|(E & ->)]; [apply tame_cons, H|].
  cbn [tame]. rewrite E. exists []. reflexivity.
Qed.
Lemma tame_evd ts : tame ts (parse_evd_at ts).
Proof.
  unfold parse_evd_at. ts_. apply tame_name_then. intros n r'. destruct (_ || _); [right; auto|].
  pose proof (tame_directives true r') as T. destruct (parse_directives_at true r') as [a q|e q]; [exact T|left; exact T].
Qed.
#[local] Hint Resolve tame_evd : tame.
Lemma tame_evds ts : tame ts (parse_evds_at ts).
Proof. unfold parse_evds_at. tm. Qed.
Lemma tame_input_fields ts : tame ts (parse_input_fields_at ts).
Proof. unfold parse_input_fields_at. tm. Qed.
#[local] Hint Resolve tame_evds tame_input_fields : tame.
Lemma tame_many_sep {A} (item : list ltok -> lresult A) sep : (forall ts, tame ts (item ts)) -> forall fuel ts, tame ts (many_sep_at item sep fuel ts).
Proof.
  intros H. induction fuel as [|fuel IH]; intros ts; cbn [many_sep_at]; [tm|]. destruct (next_if_punct_at sep ts) as [[sp r]|] eqn:E; [|tm].
  apply next_inv in E. destruct E as (t & ->). tm.
Qed.
#[local] Hint Resolve tame_many_sep : tame.
Lemma tame_sep_list {A} (item : list ltok -> lresult A) sep ts : (forall ts, tame ts (item ts)) -> tame ts (parse_sep_list_at item sep ts).
Proof.
  intros H. unfold parse_sep_list_at. destruct (next_if_punct_at sep ts) as [[sp r]|] eqn:E; [|tm]. apply next_inv in E. destruct E as (t & ->). tm.
Qed.
#[local] Hint Resolve tame_sep_list : tame.
Lemma tame_implements ts : tame ts (parse_implements_at ts).
Proof. unfold parse_implements_at. destruct (peek_name_matches_at _ _); tm. Qed.
#[local] Hint Resolve tame_implements : tame.
Lemma tame_location ts : tame ts (parse_location_at ts).
Proof. unfold parse_location_at. apply tame_name_then. intros n r. destruct (dloc_of (fst n)); [tm|right; auto]. Qed.
Lemma tame_root ts : tame ts (parse_root_at ts).
Proof.
  unfold parse_root_at. apply tame_name_then. intros n r. destruct (optype_of (fst n)) as [ty|]; [|right; auto].
  assert (T : tame r (dol (u, r2) <- expect_punct_at PColon r; dol (n0, r3) <- expect_name_at r2; LOk (ty, n0) r3)) by tm.
  destruct (lbind _ _); [exact T|left; exact T].
Qed.
#[local] Hint Resolve tame_location tame_root : tame.
Lemma tame_ddef ts : tame ts (parse_ddef_at ts).
Proof.
  unfold parse_ddef_at. ts_. do 4 (apply tame_bind; [tm|intros ? ?]). rename r3 into q.
  assert (E : exists mid, q = mid ++ snd (match next_if_name_matches_at (tx "repeatable") q with Some r => (true, r) | None => (false, q) end)).
  { destruct q as [|[[] ?] q']; try (exists []; reflexivity). cbn. destruct (teqb _ _); [eexists [_]|exists []]; reflexivity. }
  destruct (match next_if_name_matches_at (tx "repeatable") q with Some r => (true, r) | None => (false, q) end) as [b r5]. destruct E as (mid & ->). apply tame_app. tm.
Qed.
Lemma tame_sysdef ts x : try_sysdef_at ts = Some x -> tame ts x.
Proof.
  unfold try_sysdef_at. destruct (next_identifier_at ts); [|discriminate].
  repeat (match goal with |- (if ?b then _ else _) = _ -> _ => destruct b end; [intros [= <-]; unfold as_type_at; apply tame_bind; [|tm]|]); [..|discriminate].
  1-6: unfold parse_scalar_at, parse_object_at, parse_input_at, parse_enum_at, parse_union_at, parse_interface_at; ts_; tm.
  - unfold parse_esdef_at. ts_. tm.
  - apply tame_ddef.
Qed.
