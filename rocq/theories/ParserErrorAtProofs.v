(** Facts about the parser with source positions ([ParserAt.v]) used in [ParserErrorProps.v]: an error carries a token of the
    text, the last one that was read. *)
From Coq Require Import String Lia.
From Verif Require Import Base Ast Lexer Parser Location ParserAt ParserSpec ParserAtSpec ParserAtProofs ParserErrorProofs.

(** the token of an error *)
Definition lerr_token (e : lerr) : option ltok := match e with LEName t | LEIdent t _ | LEOneOf t _ | LEToken t => Some t | LEEnum n => Some (TkName (fst n), snd n) | _ => None end.
Lemma plain_err_token e : err_token (plain_err e) = option_map fst (lerr_token e).
Proof. destruct e; reflexivity. Qed.
Definition tame {A} (ts : list ltok) (x : lresult A) : Prop :=
  match x with
  | LOk _ r => exists mid, ts = mid ++ r
  | LErr e r => match lerr_token e with Some t => exists mid, ts = mid ++ t :: r | None => e = LEEof -> r = [] end
  end.
Lemma tame_app {A} m ts (x : lresult A) : tame ts x -> tame (m ++ ts) x.
Proof.
  destruct x as [a r|e r]; cbn; [intros (mid & ->); exists (m ++ mid); apply app_assoc|]. destruct (lerr_token e); [|auto].
  intros (mid & ->); exists (m ++ mid); apply app_assoc.
Qed.
Lemma tame_bind {A B} ts (x : lresult A) (f : A -> list ltok -> lresult B) : tame ts x -> (forall a r, tame r (f a r)) -> tame ts (lbind x f).
Proof. destruct x as [a r|e r]; cbn [lbind]; auto. intros (mid & ->) H. apply tame_app, H. Qed.
Lemma tame_cons {A} t ts (x : lresult A) : tame ts x -> tame (t :: ts) x.
Proof. exact (tame_app [t] ts x). Qed.
Lemma tame_ok {A} ts (a : A) : tame ts (LOk a ts).
Proof. exists []. reflexivity. Qed.
Lemma tame_fuel {A} ts r : tame ts (@LErr A LEFuel r).
Proof. cbn. discriminate. Qed.
Lemma tame_token {A} t ts : tame (t :: ts) (@LErr A (LEToken t) ts).
Proof. exists []. reflexivity. Qed.
Create HintDb tame.
#[local] Hint Resolve tame_ok tame_fuel tame_token : tame.
Ltac tm := repeat first [solve [eauto with tame] | apply tame_bind; [|intros ? ?] | apply tame_cons].
Lemma tame_name ts : tame ts (expect_name_at ts).
Proof. destruct ts as [|[[] ?] r]; cbn; try solve [intros; reflexivity | exists []; reflexivity | eexists [_]; reflexivity]. Qed.
Lemma tame_variable ts : tame ts (expect_variable_at ts).
Proof. destruct ts as [|[[] ?] r]; cbn; try solve [intros; reflexivity | exists []; reflexivity | eexists [_]; reflexivity]. Qed.
Lemma tame_name_value v ts : tame ts (expect_name_value_at v ts).
Proof. destruct ts as [|[[] ?] r]; cbn; try destruct (teqb _ _); cbn; try solve [intros; reflexivity | exists []; reflexivity | eexists [_]; reflexivity]. Qed.
Lemma tame_punct v ts : tame ts (expect_punct_at v ts).
Proof. destruct ts as [|[[] ?] r]; cbn; try destruct (punct_eqb _ _); cbn; try solve [intros; reflexivity | exists []; reflexivity | eexists [_]; reflexivity]. Qed.
Lemma tame_unexpected {A} ts : tame ts (@unexpected_at A ts).
Proof. destruct ts as [|t r]; cbn; [intros; reflexivity|exists []; reflexivity]. Qed.
#[local] Hint Resolve tame_name tame_variable tame_name_value tame_punct tame_unexpected : tame.
Lemma next_inv p ts sp r : next_if_punct_at p ts = Some (sp, r) -> exists t, ts = t :: r.
Proof. destruct ts as [|[[] ?] l]; try discriminate. cbn. destruct (punct_eqb _ _); [|discriminate]. intros [= <- <-]. eauto. Qed.
Lemma tame_many0 {A} (item : list ltok -> lresult A) close : (forall ts, tame ts (item ts)) -> forall fuel ts, tame ts (many0_at item close fuel ts).
Proof.
  intros H. induction fuel as [|fuel IH]; intros ts; cbn [many0_at]; [tm|]. destruct (next_if_punct_at close ts) as [[sp r]|] eqn:E; [|tm].
  apply next_inv in E. destruct E as (t & ->). tm.
Qed.
Lemma tame_many1 {A} (item : list ltok -> lresult A) close : (forall ts, tame ts (item ts)) -> forall fuel ts, tame ts (many1_at item close fuel ts).
Proof.
  intros H. induction fuel as [|fuel IH]; intros ts; cbn [many1_at]; [tm|]. apply tame_bind; [apply H|]. intros a r. destruct (next_if_punct_at close r) as [[sp r']|] eqn:E; [|tm].
  apply next_inv in E. destruct E as (t & ->). tm.
Qed.
Lemma tame_many_at {A} (item : list ltok -> lresult A) : (forall ts, tame ts (item ts)) -> forall fuel ts, tame ts (many_at_at item fuel ts).
Proof. intros H. induction fuel as [|fuel IH]; intros ts; cbn [many_at_at]; [tm|]. destruct (peek_punct_at PAt ts); tm. Qed.
#[local] Hint Resolve tame_many0 tame_many1 tame_many_at : tame.
Lemma tame_value const fuel : forall ts, tame ts (parse_value_at const fuel ts).
Proof.
  induction fuel as [|fuel IH]; intros ts; cbn [parse_value_at]; [tm|]. destruct ts as [|[t sp] r]; [intros _; reflexivity|]. cbn [fst snd].
  destruct t as [p| | | | |]; try (apply tame_cons; solve [tm]); [destruct p; try solve [tm]|destruct const; tm]; apply tame_cons; (apply tame_bind; [apply tame_many0; intros; tm|intros; tm]).
Qed.
#[local] Hint Resolve tame_value : tame.
Lemma tame_argument const ts : tame ts (parse_argument_at const ts).
Proof. unfold parse_argument_at. tm. Qed.
#[local] Hint Resolve tame_argument : tame.
Lemma tame_arguments const ts : tame ts (parse_arguments_at const ts).
Proof. unfold parse_arguments_at. destruct (peek_punct_at _ _); tm. Qed.
#[local] Hint Resolve tame_arguments : tame.
Lemma tame_directive const ts : tame ts (parse_directive_at const ts).
Proof. unfold parse_directive_at. tm. Qed.
#[local] Hint Resolve tame_directive : tame.
Lemma tame_directives const ts : tame ts (parse_directives_at const ts).
Proof. unfold parse_directives_at. destruct (peek_punct_at _ _); tm. Qed.
#[local] Hint Resolve tame_directives : tame.
Lemma bang_inv ts : exists mid, ts = mid ++ snd (parse_bang_at ts).
Proof. unfold parse_bang_at. destruct (next_if_punct_at PBang ts) as [[sp r]|] eqn:E; [apply next_inv in E; destruct E as (t & ->); exists [t]; reflexivity|exists []; reflexivity]. Qed.
Lemma tame_type fuel : forall ts, tame ts (parse_type_at fuel ts).
Proof.
  induction fuel as [|fuel IH]; intros ts; cbn [parse_type_at]; [tm|]. destruct (next_if_punct_at POpenSquare ts) as [[o r]|] eqn:E.
  - apply next_inv in E. destruct E as (t & ->). apply tame_cons. apply tame_bind; [apply IH|]. intros i r1. apply tame_bind; [tm|]. intros c r2.
    destruct (bang_inv r2) as (mid & E). destruct (parse_bang_at r2) as [b r3]. exists mid. exact E.
  - destruct ts as [|[[] sp] r]; cbn [next_if_name_at]; try solve [tm]. destruct (bang_inv r) as (mid & E'). destruct (parse_bang_at r) as [b r3]. eexists (_ :: mid). cbn in *. rewrite E'. reflexivity.
Qed.
#[local] Hint Resolve tame_type : tame.
Lemma tame_default ts : tame ts (parse_default_at ts).
Proof. unfold parse_default_at. destruct (next_if_punct_at PEquals ts) as [[o r]|] eqn:E; [|tm]. apply next_inv in E. destruct E as (t & ->). tm. Qed.
#[local] Hint Resolve tame_default : tame.
Lemma tame_vardef ts : tame ts (parse_vardef_at ts).
Proof. unfold parse_vardef_at. tm. Qed.
#[local] Hint Resolve tame_vardef : tame.
Lemma tame_vardefs ts : tame ts (parse_vardefs_at ts).
Proof. unfold parse_vardefs_at. destruct (peek_punct_at _ _); tm. Qed.
Lemma tame_condition ts : tame ts (parse_condition_at ts).
Proof. unfold parse_condition_at. tm. Qed.
#[local] Hint Resolve tame_vardefs tame_condition : tame.
Lemma tame_set_with item ts : (forall ts, tame ts (item ts)) -> tame ts (parse_set_with_at item ts).
Proof. intros H. unfold parse_set_with_at. tm. Qed.
#[local] Hint Resolve tame_set_with : tame.
Lemma tame_selection fuel : forall ts, tame ts (parse_selection_at fuel ts).
Proof.
  induction fuel as [|fuel IH]; intros ts; cbn [parse_selection_at]; [tm|]. destruct ts as [|[t sp] r]; [tm|]. destruct t as [p|n|n|z|b|s]; try solve [tm].
  - destruct p; try solve [tm]. apply tame_cons. destruct (match r with (TkName n, _) :: _ => negb (teqb n (tx "on")) | _ => false end).
    + apply tame_bind; [tm|]. intros n r1. destruct (teqb (fst n) (tx "on")); [cbn; discriminate|tm].
    + apply tame_bind; [destruct (peek_name_matches_at (tx "on") r); tm|]. intros c r1. tm.
  - apply tame_bind; [destruct (peek_punct_at PColon r); [apply tame_bind; [apply tame_name|]; intros; tm|apply tame_bind; [apply tame_name|]; intros; tm]|].
    intros q r1. apply tame_bind; [tm|]. intros args r2. apply tame_bind; [tm|]. intros ds r3. apply tame_bind; [destruct (peek_punct_at POpenBrace r3); tm|]. intros; tm.
Qed.
#[local] Hint Resolve tame_selection : tame.
Lemma tame_set ts : tame ts (parse_set_at ts).
Proof. unfold parse_set_at. tm. Qed.
#[local] Hint Resolve tame_set : tame.
Lemma tame_operation ts : peek_optype_at ts || peek_punct_at POpenBrace ts = true -> tame ts (parse_operation_at ts).
Proof.
  intros Pk. unfold parse_operation_at. destruct (peek_optype_at ts) eqn:E.
  - destruct ts as [|[[] sp] r]; try discriminate E. cbn [expect_name_at lbind fst snd]. cbn in E. destruct (optype_of n); [|discriminate E].
    apply tame_cons. destruct r as [|[[] sp'] r]; cbn [next_if_name_at]; try solve [tm]. 
  - cbn in Pk. rewrite Pk. tm.
Qed.
Lemma tame_fragment ts : tame ts (parse_fragment_at ts).
Proof.
  unfold parse_fragment_at. apply tame_bind; [tm|]. intros f r0. destruct r0 as [|[[] sp'] r]; cbn [expect_name_at lbind fst snd]; try (intros _; reflexivity); try (exists []; reflexivity).
  destruct (teqb n (tx "on")); [exists []; reflexivity|]. apply tame_cons. tm.
Qed.
Lemma tame_definition ts x : try_definition_at ts = Some x -> tame ts x.
Proof.
  unfold try_definition_at. destruct (peek_optype_at ts || peek_punct_at POpenBrace ts) eqn:E; [|destruct (peek_name_matches_at _ _); [|discriminate]]; intros [= <-].
  - apply tame_bind; [apply tame_operation, E|tm].
  - apply tame_bind; [apply tame_fragment|tm].
Qed.

(** ** documents *)
Lemma loop_at_errs fuel : forall ts d errs b d' errs', document_loop_at fuel ts d errs b = (d', errs') -> exists l, errs' = errs ++ l.
Proof.
  induction fuel as [|fuel IH]; intros ts d errs b d' errs'; cbn [document_loop_at]; [intros [= <- <-]; eauto|].
  assert (Z : forall r e, document_loop_at fuel r d (if b then errs else errs ++ [e]) true = (d', errs') -> exists l, errs' = errs ++ l).
  { intros r e H. apply IH in H. destruct b; [exact H|]. destruct H as (l & ->). rewrite <- app_assoc. eauto. }
  destruct (try_definition_at ts) as [[x r|e r]|]; [apply IH|apply Z|]. destruct ts; [intros [= <- <-]; exists []; now rewrite app_nil_r|apply Z].
Qed.
Lemma definition_at_cases ts x : try_definition_at ts = Some x ->
  match x with
  | LOk d r => exists mid, ts = mid ++ r /\ map fst mid = tk_definition (plain_definition d) /\ definition_ok (plain_definition d) /\ length r < length ts
  | LErr e r => length r < length ts /\
      (e = LEEof /\ r = [] /\ goes_on PEEof (map fst ts) \/
       exists pre t, lerr_token e = Some t /\ ts = pre ++ t :: r /\ goes_on (plain_err e) (map fst pre) /\ ~ begins (map fst (pre ++ [t])))
  end.
Proof.
  intros H. pose proof (tame_definition _ _ H) as T. pose proof (forget_try ts) as F. rewrite H in F. cbn [option_map] in F.
  pose proof (ParserDocProofs.try_definition_safe _ _ F) as S. destruct x as [d r|e r]; cbn [forget] in *.
  - rewrite !map_length in S. destruct T as (mid & ->). exists mid. apply ParserDocProofs.try_definition_sound in F. destruct F as (F & O). rewrite map_app in F. apply app_inv_tail in F. auto.
  - rewrite !map_length in S. destruct S as (S1 & S2 & S3 & S4). split; [exact S4|].
    assert (B : forall a pre post, forallb simple post = true /\ meets (plain_err e) post = true -> definition_ok a -> tk_definition a = pre ++ post -> goes_on (plain_err e) pre).
    { intros a pre post W O E. exists [a], post. split; [discriminate|]. split; [auto|]. split; [exact W|]. cbn. rewrite app_nil_r. exact E. }
    destruct (viab_definition _ _ _ F) as [Z|(pre & post & a & W & O & Ta & [(Ee & E1 & E2)|(t & Et & E1)])]; [contradiction| |].
    + left. destruct e; try discriminate Ee. split; [reflexivity|]. split; [destruct r; [reflexivity|discriminate E2]|]. rewrite E1. exact (B _ _ _ W O Ta).
    + right. rewrite plain_err_token in Et. cbn [tame] in T. destruct (lerr_token e) as [t'|] eqn:Et'; [|discriminate Et]. cbn in Et. injection Et as <-. destruct T as (mid & ->).
      exists mid, t'. rewrite map_app in E1. cbn [map] in E1.
      assert (Em : map fst mid = pre).
      { clear -E1. unfold ltok in *. revert E1. generalize (map fst mid) as q, (map fst r) as R, (fst t') as x. intros q R x E1.
        assert (L : length q = length pre) by (apply (f_equal (@length _)) in E1; rewrite !app_length in E1; cbn in E1; lia).
        revert pre L E1. induction q as [|m q IH]; intros [|p pre] L E1; try discriminate L; [reflexivity|]. injection E1 as <- E1. injection L as L. f_equal. auto. }
      split; [reflexivity|]. split; [reflexivity|]. split; [rewrite Em; exact (B _ _ _ W O Ta)|]. rewrite map_app. cbn [map].
      rewrite map_app in F. cbn [map] in F. apply (error_not_begins _ _ _ _ F); [|exact S1]. intros Z. pose proof (plain_err_token e) as Q. rewrite Z, Et' in Q. discriminate Q.
Qed.
Lemma undefined_at t r : try_definition_at (t :: r) = None -> ~ begins (map fst [t]).
Proof. intros H. pose proof (forget_try (t :: r)) as F. rewrite H in F. exact (undefined_not_begins _ _ F). Qed.
(** the first error of a document *)
Lemma located_first_error fuel : forall ts d d' e es, length ts < fuel -> document_loop_at fuel ts d [] false = (d', e :: es) ->
  e = LEEof /\ goes_on PEEof (map fst ts) \/
  exists pre t r, lerr_token e = Some t /\ ts = pre ++ t :: r /\ goes_on (plain_err e) (map fst pre) /\ ~ begins (map fst (pre ++ [t])).
Proof.
  induction fuel as [|fuel IH]; intros ts d d' e es L H; [lia|]. cbn [document_loop_at] in H.
  destruct (try_definition_at ts) as [x|] eqn:E.
  - pose proof (definition_at_cases _ _ E) as K. destruct x as [a r1|e1 r1].
    + destruct K as (mid & -> & M & O & L'). apply IH in H; [|lia]. unfold ltok in *. destruct H as [(-> & B)|(pre & t & r & T & -> & B & N)].
      * left. split; [reflexivity|]. rewrite map_app, M. apply goes_on_cons; auto.
      * right. exists (mid ++ pre), t, r. split; [exact T|]. split; [apply app_assoc|]. split; [rewrite map_app, M; apply goes_on_cons; auto|].
        rewrite <- app_assoc, map_app, M. intros B'. apply N, (begins_uncons _ _ O B').
    + apply loop_at_errs in H. destruct H as (l & C). injection C as -> _. destruct K as (_ & [(-> & -> & B)|(pre & t & T & -> & B & N)]); [left; auto|right]. exists pre, t, r1. auto.
  - destruct ts as [|t r]; [discriminate|]. apply loop_at_errs in H. destruct H as (l & C). injection C as -> _. right. exists [], t, r.
    split; [reflexivity|]. split; [reflexivity|]. split; [apply goes_on_nil|apply (undefined_at _ _ E)].
Qed.
(** the errors of a document are on tokens of the text, in order; only the last can be at the end; [b]: a definition comes before
    the next error *)
Inductive spots : bool -> list ltok -> list lerr -> Prop :=
| spots_nil b ts : spots b ts []
| spots_eof ts : spots false ts [LEEof]
| spots_skip b t r es : spots b r es -> spots b (t :: r) es
| spots_definition b d mid r es : map fst mid = tk_definition d -> definition_ok d -> spots false r es -> spots b (mid ++ r) es
| spots_token e t pre r es : lerr_token e = Some t -> spots true r es -> spots false (pre ++ t :: r) (e :: es).
Lemma spots_app b m ts es : spots b ts es -> spots b (m ++ ts) es.
Proof. intros H. induction m as [|t m IH]; [exact H|]. cbn. constructor. exact IH. Qed.
Lemma loop_at_spots fuel : forall ts d errs b d' errs', length ts < fuel -> document_loop_at fuel ts d errs b = (d', errs') -> exists es, errs' = errs ++ es /\ spots b ts es.
Proof.
  induction fuel as [|fuel IH]; intros ts d errs b d' errs' L H; [lia|]. cbn [document_loop_at] in H.
  destruct (try_definition_at ts) as [x|] eqn:E.
  - pose proof (definition_at_cases _ _ E) as K. destruct x as [a r1|e1 r1].
    + destruct K as (mid & -> & M & O & L'). apply IH in H; [|lia]. destruct H as (es & -> & Sp). exists es. split; [reflexivity|]. exact (spots_definition _ _ _ _ _ M O Sp).
    + destruct K as (L' & K). destruct K as [(-> & -> & _)|(pre & t & T & -> & _)].
      * assert (fuel <> 0) by (destruct ts; cbn in *; lia). destruct fuel as [|fuel]; [lia|]. cbn in H. injection H as <- <-. destruct b; [exists []; rewrite app_nil_r; split; [reflexivity|constructor]|].
        exists [LEEof]. split; [reflexivity|constructor].
      * apply IH in H; [|lia]. destruct H as (es & -> & Sp). destruct b; [exists es; split; [reflexivity|]; change (t :: r1) with ([t] ++ r1); rewrite app_assoc; apply spots_app, Sp|].
        exists (e1 :: es). split; [rewrite <- app_assoc; reflexivity|]. constructor; auto.
  - destruct ts as [|t r]; [injection H as <- <-; exists []; rewrite app_nil_r; split; [reflexivity|constructor]|].
    apply IH in H; [|cbn in L; lia]. destruct H as (es & -> & Sp). destruct b; [exists es; split; [reflexivity|]; constructor; exact Sp|].
    exists (LEToken t :: es). split; [rewrite <- app_assoc; reflexivity|]. apply (spots_token (LEToken t) t []); auto.
Qed.
Lemma spots_first b ts e es : spots b ts (e :: es) ->
  e = LEEof /\ es = [] \/ exists t pre r, ts = pre ++ t :: r /\ lerr_token e = Some t /\ spots true r es.
Proof.
  intros H. remember (e :: es) as l eqn:El. induction H as [b ts|ts|b t r l' H IH|b d mid r l' M O H IH|e' t pre r l' T H IH]; try discriminate El.
  - injection El as <- <-. auto.
  - destruct (IH El) as [K|(t' & pre & r' & -> & K)]; [auto|]. right. exists t', (t :: pre), r'. auto.
  - destruct (IH El) as [K|(t' & pre & r' & -> & K)]; [auto|]. right. exists t', (mid ++ pre), r'. rewrite <- app_assoc. auto.
  - injection El as <- <-. right. exists t, pre, r. auto.
Qed.
Lemma spots_gap ts e es : spots true ts (e :: es) ->
  exists pre mid r d, ts = pre ++ mid ++ r /\ map fst mid = tk_definition d /\ definition_ok d /\ spots false r (e :: es).
Proof.
  intros H. remember (e :: es) as l eqn:El. remember true as b eqn:Eb. induction H as [b ts|ts|b t r l' H IH|b d mid r l' M O H IH|e' t pre r l' T H IH]; try discriminate.
  - destruct (IH El Eb) as (pre & mid & r' & d & -> & K). exists (t :: pre), mid, r', d. auto.
  - exists [], mid, r, d. subst l'. auto.
Qed.
(** between two errors there is a definition *)
Lemma spots_between b ts es : spots b ts es -> forall i e1 e2, nth_error es i = Some e1 -> nth_error es (S i) = Some e2 ->
  exists pre t mid post d, ts = pre ++ mid ++ post /\ map fst mid = tk_definition d /\ definition_ok d /\ lerr_token e1 = Some t /\ In t pre /\
    (e2 = LEEof \/ exists t2, lerr_token e2 = Some t2 /\ In t2 post).
Proof.
  revert b ts. induction es as [|e es IH]; intros b ts H i e1 e2 H1 H2; [destruct i; discriminate|]. destruct es as [|e' es]; [destruct i as [|[]]; discriminate H2|].
  apply spots_first in H. destruct H as [(_ & H)|(t & pre & r & -> & T & H)]; [discriminate H|]. destruct i as [|i].
  - cbn in H1, H2. injection H1 as ->. injection H2 as ->. destruct (spots_gap _ _ _ H) as (p & mid & r' & d & -> & M & O & S).
    exists (pre ++ t :: p), t, mid, r', d. split; [rewrite <- app_assoc; reflexivity|]. do 3 (split; [assumption|]). split; [apply in_or_app; right; left; reflexivity|].
    apply spots_first in S. destruct S as [(S & _)|(t2 & p2 & r2 & -> & T2 & _)]; [auto|]. right. exists t2. split; [exact T2|]. apply in_or_app. right. left. reflexivity.
  - destruct (IH _ _ H i e1 e2 H1 H2) as (p & t' & mid & post & d & -> & M & O & T' & I & K). exists (pre ++ t :: p), t', mid, post, d. split; [rewrite <- app_assoc; reflexivity|].
    do 3 (split; [assumption|]). split; [apply in_or_app; right; right; exact I|exact K].
Qed.
