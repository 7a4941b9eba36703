(** Where the definition parser fails, in documents: facts used in [DefParserErrorProps.v]. *)
From Coq Require Import String Lia.
From Verif Require Import Base Ast Lexer LexerProps Parser ParserSpec ParserProofs Location DefParser DefParserSpec DefParserProofs ParserAt DefParserAt ParserAtSpec DefParserAtSpec ParserAtProofs
  DefParserAtProofs ParserErrorProofs ParserErrorAtProofs ParserErrorTextProofs DefParserErrorProofs.

(** the tokens of type system documents *)
Definition sdl_tokens (ts : list token) : Prop := exists xs, xs <> [] /\ Forall sysdef_ok (map snd xs) /\ written xs = ts.
Notation begins := (begins_in sdl_tokens).
Notation goes_on := (goes_on_in sdl_tokens).

(** ** Results that do not depend on what follows *)
Lemma extends_ok {A} (p : list token -> presult A) q s r a : extends p p -> (forall e s, p q = PErr e s -> e <> PEFuel) -> s <> [] ->
  p (q ++ r) = POk a (s ++ r) -> forall post, p (q ++ post) = POk a (s ++ post).
Proof.
  intros E NF NE H post. pose proof (E q r) as K. pose proof (E q post) as K'. rewrite H in K. destruct (p q) as [a' s'|e s'] eqn:Q.
  - destruct s' as [|t s'].
    + cbn in K. rewrite app_length in K. destruct s; [congruence|cbn in K; lia].
    + cbn [ext] in K, K'. injection K as <- K. change (s ++ r = (t :: s') ++ r) in K. apply app_inv_tail in K. subst s. exact K'.
  - destruct e; cbn [ext] in K; try discriminate K; [|now specialize (NF _ _ eq_refl)].
    cbn in K. rewrite app_length in K. destruct s; [congruence|cbn in K; lia].
Qed.
Lemma extends_err {A} (p : list token -> presult A) q r e : extends p p -> (forall e s, p q = PErr e s -> e <> PEFuel) ->
  p (q ++ r) = PErr e r -> e <> PEEof -> e <> PEFuel -> forall post, p (q ++ post) = PErr e post.
Proof.
  intros E NF H N1 N2 post. pose proof (E q r) as K. pose proof (E q post) as K'. rewrite H in K. destruct (p q) as [a' s'|e' s'] eqn:Q.
  - destruct s'; cbn in K; [destruct e; congruence || lia|discriminate K].
  - assert (C : PErr e r = @PErr A e' (s' ++ r) /\ e' <> PEEof).
    { destruct e'; cbn in K; try congruence; try (split; [exact K|discriminate]); [|now specialize (NF _ _ eq_refl)]. destruct e; try congruence; lia. }
    destruct C as (C & B'). injection C as <- C. assert (s' = []) as -> by (apply (f_equal (@length _)) in C; rewrite app_length in C; destruct s'; [reflexivity|cbn in C; lia]).
    destruct e; cbn in K'; congruence.
Qed.
Lemma body_no_fuel n k d : body_of n = Some k -> forall q e s, k d q = PErr e s -> e <> PEFuel.
Proof.
  intros B q e s H. pose proof (try_sysdef_body d n q) as T. rewrite B in T. cbn [option_map] in T. rewrite H in T. apply try_sysdef_strict in T. cbn in T. tauto.
Qed.
Lemma app_same_tail {A} (a b x y : list A) : a ++ x = b ++ y -> length x = length y -> a = b /\ x = y.
Proof.
  revert b. induction a as [|u a IH]; intros [|v b] E L; cbn in *.
  - auto.
  - subst x. cbn in L. rewrite app_length in L. lia.
  - subst y. cbn in L. rewrite app_length in L. lia.
  - injection E as <- E. destruct (IH _ E L) as (-> & ->). auto.
Qed.
(** an error on a token does not depend on the tokens after it *)
Lemma sysdef_error_ext pre t r e : try_sysdef (pre ++ t :: r) = Some (PErr e r) -> e <> PEEof -> forall post, try_sysdef (pre ++ t :: post) = Some (PErr e post).
Proof.
  intros H N post. pose proof (try_sysdef_strict _ _ H) as S. cbn in S. assert (NF : e <> PEFuel) by tauto. clear S.
  destruct (try_sysdef_cases (pre ++ t :: r)) as [(d & n & r0 & k & E & B & T)|C]; [|congruence]. rewrite H in T. injection T as T. symmetry in T.
  pose proof (body_beyond n k d r0 B) as Y. rewrite T in Y. assert (L : length r < length r0) by (destruct e; cbn in Y; congruence || exact Y).
  assert (Q : exists q, r0 = q ++ r /\ pre ++ [t] = tk_desc d ++ TkName n :: q).
  { exists (firstn (length r0 - length r) r0). pose proof (firstn_skipn (length r0 - length r) r0) as F.
    assert (X : pre ++ [t] = tk_desc d ++ TkName n :: firstn (length r0 - length r) r0 /\ r = skipn (length r0 - length r) r0).
    { apply app_same_tail; [|rewrite skipn_length; lia]. rewrite <- !app_assoc. cbn [app]. rewrite F. exact E. }
    destruct X as (X1 & X2). split; [|exact X1]. etransitivity; [symmetry; exact F|]. f_equal. symmetry. exact X2. }
  destruct Q as (q & -> & Q). pose proof (extends_err (k d) q r e (body_extends n k d B) (body_no_fuel n k d B q) T N NF post) as K.
  change (t :: post) with ([t] ++ post). rewrite app_assoc, Q, <- app_assoc. cbn [app]. rewrite try_sysdef_body, B. cbn. rewrite K. reflexivity.
Qed.
(** a definition that is read together with the next tokens is read the same whatever comes after these *)
Lemma sysdef_ok_ext lead x q r : sysdef_ok x -> q <> [] -> try_sysdef (tk_sysdef lead x ++ q ++ r) = Some (POk x (q ++ r)) ->
  forall post, try_sysdef (tk_sysdef lead x ++ q ++ post) = Some (POk x (q ++ post)).
Proof.
  intros O NE H post. destruct (tk_sysdef_head lead x O) as (d & n & l & E). rewrite E in *. rewrite <- app_assoc in *. cbn [app] in *. rewrite try_sysdef_body in *.
  destruct (body_of n) as [k|] eqn:B; [|discriminate H]. cbn [option_map] in *. injection H as H. f_equal. rewrite app_assoc in *.
  exact (extends_ok (k d) (l ++ q) q r x (body_extends n k d B) (body_no_fuel n k d B _) NE H post).
Qed.
Lemma begins_reads ts : begins ts -> exists post x r, try_sysdef (ts ++ post) = Some (POk x r).
Proof.
  intros (post & xs & NE & F & E). destruct xs as [|[lead x] xs]; [congruence|]. cbn [map snd fst concat] in *. inversion_clear F as [|? ? O F']. exists post. rewrite <- E.
  eexists _, _. apply try_sysdef_complete; [exact O|]. apply written_ends, F'.
Qed.
Lemma error_not_begins pre t r e : try_sysdef (pre ++ t :: r) = Some (PErr e r) -> e <> PEEof -> ~ begins (pre ++ [t]).
Proof.
  intros H N1 B. destruct (begins_reads _ B) as (post & d & r' & C). rewrite <- app_assoc in C. cbn [app] in C.
  rewrite (sysdef_error_ext _ _ _ _ H N1) in C. discriminate C.
Qed.
Lemma begins_uncons lead x q r : sysdef_ok x -> q <> [] -> try_sysdef (tk_sysdef lead x ++ q ++ r) = Some (POk x (q ++ r)) -> begins (tk_sysdef lead x ++ q) -> begins q.
Proof.
  intros O NE H (post & xs & NE' & F & E). destruct xs as [|[l1 x1] xs]; [congruence|]. cbn [map snd fst concat] in *. inversion_clear F as [|? ? O1 F']. rewrite <- app_assoc in E.
  pose proof (try_sysdef_complete l1 x1 (written xs) O1 (written_ends xs F')) as C. rewrite E, (sysdef_ok_ext _ _ _ _ O NE H post) in C. injection C as <- C.
  exists post, xs. split; [|split; [exact F'|symmetry; exact C]]. intros ->. destruct q; [congruence|discriminate C].
Qed.
Lemma goes_on_cons e lead x ts : sysdef_ok x -> goes_on e ts -> goes_on e (tk_sysdef lead x ++ ts).
Proof. intros O (post & W & xs & _ & F & E). exists post. split; [exact W|]. exists ((lead, x) :: xs). split; [discriminate|]. split; [constructor; auto|]. cbn [map concat fst snd]. rewrite E, app_assoc. reflexivity. Qed.
Definition some_scalar (d : option text) : sysdef := SysType (DScalar {| sc_name := tx "a"; sc_desc := d; sc_dirs := [] |}).
Lemma goes_on_desc e d : meets e [TkName (tx "scalar"); TkName (tx "a")] = true -> goes_on e (tk_desc d).
Proof.
  intros M. exists [TkName (tx "scalar"); TkName (tx "a")]. split; [split; [reflexivity|exact M]|]. exists [(false, some_scalar d)]. split; [discriminate|]. split; [repeat constructor|]. cbn. rewrite app_nil_r. reflexivity.
Qed.
(** a token that begins no definition: either no document has it here, or it is a description, and no document goes on with the
    next token, or there is none *)
Lemma undefined_cases t r : try_sysdef (t :: r) = None -> ~ begins [t] \/ exists s, t = TkStr s /\ (r = [] \/ exists t2 r2, r = t2 :: r2 /\ ~ begins [t; t2]).
Proof.
  intros H. assert (Z : forall ts, (forall post, try_sysdef (ts ++ post) = None) -> ~ begins ts) by (intros ts K B; destruct (begins_reads _ B) as (post & x & r' & C); rewrite K in C; discriminate C).
  destruct t as [p|n|n|z|b|s]; try (left; apply Z; intros post; reflexivity).
  - left. apply Z. intros post. cbn [app]. pose proof (try_sysdef_body None n r) as T1. pose proof (try_sysdef_body None n post) as T2. cbn [tk_desc app] in *. rewrite H in T1.
    destruct (body_of n); [discriminate T1|exact T2].
  - right. exists s. split; [reflexivity|]. destruct r as [|t2 r2]; [left; reflexivity|right]. exists t2, r2. split; [reflexivity|]. apply Z. intros post. cbn [app].
    destruct t2 as [p|n|n|z|b|s']; try reflexivity. pose proof (try_sysdef_body (Some s) n r2) as T1. pose proof (try_sysdef_body (Some s) n post) as T2. cbn [tk_desc app] in *. rewrite H in T1.
    destruct (body_of n); [discriminate T1|exact T2].
Qed.

(** ** The first error *)
Lemma sysdef_at_cases ts x : try_sysdef_at ts = Some x ->
  match x with
  | LOk d r => exists mid lead, ts = mid ++ r /\ map fst mid = tk_sysdef lead (plain_sysdef d) /\ sysdef_ok (plain_sysdef d) /\ length r < length ts /\
                 try_sysdef (map fst ts) = Some (POk (plain_sysdef d) (map fst r))
  | LErr e r => length r < length ts /\
      (e = LEEof /\ r = [] /\ goes_on PEEof (map fst ts) \/
       exists pre t, lerr_token e = Some t /\ ts = pre ++ t :: r /\ goes_on (plain_err e) (map fst pre) /\ ~ begins (map fst (pre ++ [t])))
  end.
Proof.
  intros H. pose proof (tame_sysdef _ _ H) as T. pose proof (forget_try_sysdef ts) as F. rewrite H in F. cbn [option_map] in F.
  pose proof (try_sysdef_strict _ _ F) as S. destruct x as [d r|e r]; cbn [forget] in *.
  - cbn [strict] in S. rewrite !map_length in S. destruct T as (mid & ->). exists mid. pose proof F as F0. apply try_sysdef_sound in F. destruct F as (lead & F & O). rewrite map_app in F. apply app_inv_tail in F. exists lead. auto 10.
  - cbn [strict] in S. rewrite !map_length in S. destruct S as (S1 & S2 & S3 & S4). split; [exact S4|].
    assert (B : forall a pre post, forallb simple post = true /\ meets (plain_err e) post = true -> okp a -> tkp a = pre ++ post -> goes_on (plain_err e) pre).
    { intros [l a] pre post W O E. exists post. split; [exact W|]. exists [(l, a)]. split; [discriminate|]. split; [repeat constructor; exact O|]. cbn. rewrite app_nil_r. exact E. }
    destruct (viab_sysdef _ _ _ F) as [Z|(pre & post & a & W & O & Ta & [(Ee & E1 & E2)|(t & Et & E1)])]; [contradiction| |].
    + left. destruct e; try discriminate Ee. split; [reflexivity|]. split; [destruct r; [reflexivity|discriminate E2]|]. rewrite E1. exact (B _ _ _ W O Ta).
    + right. rewrite plain_err_token in Et. cbn [tame] in T. destruct (lerr_token e) as [t'|] eqn:Et'; [|discriminate Et]. cbn in Et. injection Et as <-. destruct T as (mid & ->).
      exists mid, t'. rewrite map_app in E1. cbn [map] in E1.
      assert (Em : map fst mid = pre).
      { unfold ltok in *. destruct (app_same_tail _ _ _ _ E1 eq_refl) as (Em & _). exact Em. }
      split; [reflexivity|]. split; [reflexivity|]. split; [rewrite Em; exact (B _ _ _ W O Ta)|]. rewrite map_app. cbn [map].
      rewrite map_app in F. cbn [map] in F. apply (error_not_begins _ _ _ _ F). intros Z. pose proof (plain_err_token e) as Q. rewrite Z, Et' in Q. discriminate Q.
Qed.
Lemma sysdoc_loop_at_errs fuel : forall ts d errs b d' errs', sysdoc_loop_at fuel ts d errs b = (d', errs') -> exists l, errs' = errs ++ l.
Proof.
  induction fuel as [|fuel IH]; intros ts d errs b d' errs'; cbn [sysdoc_loop_at]; [intros [= <- <-]; eauto|].
  assert (Z : forall r e, sysdoc_loop_at fuel r d (if b then errs else errs ++ [e]) true = (d', errs') -> exists l, errs' = errs ++ l).
  { intros r e H. apply IH in H. destruct b; [exact H|]. destruct H as (l & ->). rewrite <- app_assoc. eauto. }
  destruct (try_sysdef_at ts) as [[x r|e r]|]; [apply IH|apply Z|]. destruct ts; [intros [= <- <-]; exists []; now rewrite app_nil_r|apply Z].
Qed.
(** where the first error of a document is: at the end; on the first token that no document has there; or on a description, and then
    no document has the next token there, or there is none *)
Inductive first_spot (ts : list ltok) : lerr -> Prop :=
| first_end : goes_on PEEof (map fst ts) -> first_spot ts LEEof
| first_token e pre t r : lerr_token e = Some t -> ts = pre ++ t :: r -> goes_on (plain_err e) (map fst pre) -> ~ begins (map fst (pre ++ [t])) -> first_spot ts e
| first_desc pre s sp t2 r : ts = pre ++ (TkStr s, sp) :: t2 :: r -> goes_on (PEToken (fst t2)) (map fst (pre ++ [(TkStr s, sp)])) ->
    ~ begins (map fst (pre ++ [(TkStr s, sp); t2])) -> first_spot ts (LEToken (TkStr s, sp))
| first_desc_end pre s sp : ts = pre ++ [(TkStr s, sp)] -> goes_on PEEof (map fst ts) -> first_spot ts (LEToken (TkStr s, sp)).
Lemma first_spot_cons mid lead x ts e : sysdef_ok x -> map fst mid = tk_sysdef lead x -> try_sysdef (map fst (mid ++ ts)) = Some (POk x (map fst ts)) ->
  first_spot ts e -> first_spot (mid ++ ts) e.
Proof.
  intros O M T H. rewrite map_app, M in T.
  assert (U : forall q r, q <> [] -> ts = q ++ r -> ~ begins (map fst q) -> ~ begins (map fst (mid ++ q))).
  { intros q r NE -> N B. apply N. rewrite map_app, M in B. rewrite map_app in T. apply (begins_uncons lead x (map fst q) (map fst r) O); [destruct q; [congruence|discriminate]|exact T|exact B]. }
  destruct H as [G|e pre t r Et E G N|pre s sp t2 r E G N|pre s sp E G].
  - apply first_end. rewrite map_app, M. apply goes_on_cons; auto.
  - apply (first_token _ e (mid ++ pre) t r Et); [rewrite E; apply app_assoc|rewrite map_app, M; apply goes_on_cons; auto|]. rewrite <- app_assoc. apply (U _ r); [destruct pre; discriminate|rewrite <- app_assoc; exact E|exact N].
  - apply (first_desc _ (mid ++ pre) s sp t2 r); [rewrite E; apply app_assoc|rewrite <- app_assoc, map_app, M; apply goes_on_cons; auto|]. rewrite <- app_assoc.
    apply (U _ r); [destruct pre; discriminate|rewrite <- app_assoc; exact E|exact N].
  - apply (first_desc_end _ (mid ++ pre)); [rewrite E; apply app_assoc|]. rewrite map_app, M. apply goes_on_cons; auto.
Qed.
Lemma sysdoc_first_error fuel : forall ts d d' e es, length ts < fuel -> sysdoc_loop_at fuel ts d [] false = (d', e :: es) -> first_spot ts e.
Proof.
  induction fuel as [|fuel IH]; intros ts d d' e es L H; [lia|]. cbn [sysdoc_loop_at] in H.
  destruct (try_sysdef_at ts) as [x|] eqn:E.
  - pose proof (sysdef_at_cases _ _ E) as K. destruct x as [a r1|e1 r1].
    + destruct K as (mid & lead & -> & M & O & L' & T). apply IH in H; [|lia]. exact (first_spot_cons _ _ _ _ _ O M T H).
    + apply sysdoc_loop_at_errs in H. destruct H as (l & C). injection C as -> _. destruct K as (_ & [(-> & -> & B)|(pre & t & T & -> & B & N)]); [apply first_end, B|]. exact (first_token _ _ pre t r1 T eq_refl B N).
  - destruct ts as [|t r]; [discriminate|]. apply sysdoc_loop_at_errs in H. destruct H as (l & C). injection C as -> _.
    pose proof (forget_try_sysdef (t :: r)) as F. rewrite E in F. cbn [map option_map] in F. apply undefined_cases in F. destruct F as [F|(s & Es & F)].
    + apply (first_token _ _ [] t r); [reflexivity|reflexivity|apply (goes_on_desc _ None); reflexivity|exact F].
    + destruct t as [t sp]. cbn [fst] in Es. subst t. destruct F as [F|(t2 & r2 & Er & F)].
      * destruct r; [|discriminate F]. apply (first_desc_end _ [] s sp); [reflexivity|]. apply (goes_on_desc PEEof (Some s)). reflexivity.
      * destruct r as [|u r]; [discriminate Er|]. injection Er as <- _. apply (first_desc _ [] s sp u r); [reflexivity| |exact F]. apply (goes_on_desc _ (Some s)). reflexivity.
Qed.

(** ** All errors: on tokens of the text, in order; only the last can be at the end; [b]: a definition comes before the next error *)
Inductive spots : bool -> list ltok -> list lerr -> Prop :=
| spots_nil b ts : spots b ts []
| spots_eof ts : spots false ts [LEEof]
| spots_skip b t r es : spots b r es -> spots b (t :: r) es
| spots_definition b lead d mid r es : map fst mid = tk_sysdef lead d -> sysdef_ok d -> spots false r es -> spots b (mid ++ r) es
| spots_token e t pre r es : lerr_token e = Some t -> spots true r es -> spots false (pre ++ t :: r) (e :: es).
Lemma spots_app b m ts es : spots b ts es -> spots b (m ++ ts) es.
Proof. intros H. induction m as [|t m IH]; [exact H|]. cbn. constructor. exact IH. Qed.
Lemma sysdoc_loop_spots fuel : forall ts d errs b d' errs', length ts < fuel -> sysdoc_loop_at fuel ts d errs b = (d', errs') -> exists es, errs' = errs ++ es /\ spots b ts es.
Proof.
  induction fuel as [|fuel IH]; intros ts d errs b d' errs' L H; [lia|]. cbn [sysdoc_loop_at] in H.
  destruct (try_sysdef_at ts) as [x|] eqn:E.
  - pose proof (sysdef_at_cases _ _ E) as K. destruct x as [a r1|e1 r1].
    + destruct K as (mid & lead & -> & M & O & L' & _). apply IH in H; [|lia]. destruct H as (es & -> & Sp). exists es. split; [reflexivity|]. exact (spots_definition _ _ _ _ _ _ M O Sp).
    + destruct K as (L' & K). destruct K as [(-> & -> & _)|(pre & t & T & -> & _)].
      * assert (fuel <> 0) by (destruct ts; cbn in *; lia). destruct fuel as [|fuel]; [lia|]. cbn in H. injection H as <- <-. destruct b; [exists []; rewrite app_nil_r; split; [reflexivity|constructor]|].
        exists [LEEof]. split; [reflexivity|constructor].
      * apply IH in H; [|lia]. destruct H as (es & -> & Sp). destruct b; [exists es; split; [reflexivity|]; change (t :: r1) with ([t] ++ r1); rewrite app_assoc; apply spots_app, Sp|].
        exists (e1 :: es). split; [rewrite <- app_assoc; reflexivity|]. constructor; auto.
  - destruct ts as [|t r]; [injection H as <- <-; exists []; rewrite app_nil_r; split; [reflexivity|constructor]|].
    apply IH in H; [|cbn in L; lia]. destruct H as (es & -> & Sp). destruct b; [exists es; split; [reflexivity|]; constructor; exact Sp|].
    exists (LEToken t :: es). split; [rewrite <- app_assoc; reflexivity|]. apply (spots_token (LEToken t) t []); auto.
Qed.
Lemma spots_first b ts e es : spots b ts (e :: es) ->
  e = LEEof /\ es = [] \/ exists t pre r, ts = pre ++ t :: r /\ lerr_token e = Some t /\ spots true r es.
Proof.
  intros H. remember (e :: es) as l eqn:El. induction H as [b ts|ts|b t r l' H IH|b lead d mid r l' M O H IH|e' t pre r l' T H IH]; try discriminate El.
  - injection El as <- <-. auto.
  - destruct (IH El) as [K|(t' & pre & r' & -> & K)]; [auto|]. right. exists t', (t :: pre), r'. auto.
  - destruct (IH El) as [K|(t' & pre & r' & -> & K)]; [auto|]. right. exists t', (mid ++ pre), r'. rewrite <- app_assoc. auto.
  - injection El as <- <-. right. exists t, pre, r. auto.
Qed.
Lemma spots_gap ts e es : spots true ts (e :: es) ->
  exists pre mid r lead d, ts = pre ++ mid ++ r /\ map fst mid = tk_sysdef lead d /\ sysdef_ok d /\ spots false r (e :: es).
Proof.
  intros H. remember (e :: es) as l eqn:El. remember true as b eqn:Eb. induction H as [b ts|ts|b t r l' H IH|b lead d mid r l' M O H IH|e' t pre r l' T H IH]; try discriminate.
  - destruct (IH El Eb) as (pre & mid & r' & lead & d & -> & K). exists (t :: pre), mid, r', lead, d. auto.
  - exists [], mid, r, lead, d. subst l'. auto.
Qed.
(** between two errors there is a definition *)
Lemma spots_between b ts es : spots b ts es -> forall i e1 e2, nth_error es i = Some e1 -> nth_error es (S i) = Some e2 ->
  exists pre t mid post lead d, ts = pre ++ mid ++ post /\ map fst mid = tk_sysdef lead d /\ sysdef_ok d /\ lerr_token e1 = Some t /\ In t pre /\
    (e2 = LEEof \/ exists t2, lerr_token e2 = Some t2 /\ In t2 post).
Proof.
  revert b ts. induction es as [|e es IH]; intros b ts H i e1 e2 H1 H2; [destruct i; discriminate|]. destruct es as [|e' es]; [destruct i as [|[]]; discriminate H2|].
  apply spots_first in H. destruct H as [(_ & H)|(t & pre & r & -> & T & H)]; [discriminate H|]. destruct i as [|i].
  - cbn in H1, H2. injection H1 as ->. injection H2 as ->. destruct (spots_gap _ _ _ H) as (p & mid & r' & lead & d & -> & M & O & S).
    exists (pre ++ t :: p), t, mid, r', lead, d. split; [rewrite <- app_assoc; reflexivity|]. do 3 (split; [assumption|]). split; [apply in_or_app; right; left; reflexivity|].
    apply spots_first in S. destruct S as [(S & _)|(t2 & p2 & r2 & -> & T2 & _)]; [auto|]. right. exists t2. split; [exact T2|]. apply in_or_app. right. left. reflexivity.
  - destruct (IH _ _ H i e1 e2 H1 H2) as (p & t' & mid & post & lead & d & -> & M & O & T' & I & K). exists (pre ++ t :: p), t', mid, post, lead, d. split; [rewrite <- app_assoc; reflexivity|].
    do 3 (split; [assumption|]). split; [apply in_or_app; right; right; exact I|exact K].
Qed.

