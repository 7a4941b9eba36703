(** Where the parser fails: the tokens before the offending one can be completed to a document, and with it they cannot. *)
From Coq Require Import String.
From Verif Require Import Base Ast Lexer Parser ParserSpec ParserProofs ParserDocProofs.
From Coq Require Import Lia.

(** ** Consumption and extension *)
(** [beyond r x]: the parser went on to the tokens [r], or would have *)
Definition beyond {A} (r : list token) (x : presult A) : Prop :=
  match x with
  | POk _ s => length s <= length r
  | PErr e s => match e with PEFuel | PEEof => True | _ => length s < length r end
  end.
Lemma beyond_le {A} r r' (x : presult A) : length r <= length r' -> beyond r x -> beyond r' x.
Proof. destruct x as [a s|[] s]; cbn; lia. Qed.
Lemma beyond_bind {A B} r (x : presult A) (f : A -> list token -> presult B) : beyond r x -> (forall a s, beyond s (f a s)) -> beyond r (bind x f).
Proof. destruct x as [a s|e s]; cbn [bind]; auto. intros H K. exact (beyond_le s r _ H (K a s)). Qed.
Lemma beyond_ok {A} r (a : A) : beyond r (POk a r).
Proof. cbn. lia. Qed.
Lemma beyond_name ts : beyond ts (expect_name ts). Proof. destruct ts as [|[] r]; cbn; lia. Qed.
Lemma beyond_variable ts : beyond ts (expect_variable ts). Proof. destruct ts as [|[] r]; cbn; lia. Qed.
Lemma beyond_name_value v ts : beyond ts (expect_name_value v ts).
Proof. destruct ts as [|[] r]; cbn; try lia. destruct (teqb _ _); cbn; lia. Qed.
Lemma beyond_punct p ts : beyond ts (expect_punct p ts).
Proof. destruct ts as [|[] r]; cbn; try lia. destruct (punct_eqb _ _); cbn; lia. Qed.
Lemma beyond_unexpected {A} ts : beyond ts (@unexpected A ts). Proof. destruct ts as [|[] r]; cbn; lia. Qed.
Lemma next_length p ts r : next_if_punct p ts = Some r -> length r <= length ts.
Proof. intros H. apply next_if_punct_inv in H as ->. cbn. lia. Qed.
Create HintDb beyond discriminated.
Global Hint Resolve beyond_ok beyond_name beyond_variable beyond_name_value beyond_punct beyond_unexpected : beyond.
Ltac bb := repeat (apply beyond_bind; [auto with beyond|intros ? ?]); auto with beyond.
Lemma beyond_many0 {A} (item : list token -> presult A) close : (forall ts, beyond ts (item ts)) -> forall fuel ts, beyond ts (many0 item close fuel ts).
Proof.
  intros H. induction fuel as [|fuel IH]; intros ts; cbn [many0]; [exact I|]. destruct (next_if_punct close ts) as [r|] eqn:E.
  - cbn. exact (next_length _ _ _ E).
  - bb.
Qed.
Lemma beyond_many1 {A} (item : list token -> presult A) close : (forall ts, beyond ts (item ts)) -> forall fuel ts, beyond ts (many1 item close fuel ts).
Proof.
  intros H. induction fuel as [|fuel IH]; intros ts; cbn [many1]; [exact I|]. apply beyond_bind; [auto|]. intros a r. destruct (next_if_punct close r) as [r'|] eqn:E.
  - cbn. exact (next_length _ _ _ E).
  - bb.
Qed.
Lemma beyond_many_at {A} (item : list token -> presult A) : (forall ts, beyond ts (item ts)) -> forall fuel ts, beyond ts (many_at item fuel ts).
Proof.
  intros H. induction fuel as [|fuel IH]; intros ts; cbn [many_at]; [exact I|]. destruct (peek_punct PAt ts); bb.
Qed.
Lemma beyond_value c fuel : forall ts, beyond ts (parse_value c fuel ts).
Proof.
  induction fuel as [|fuel IH]; intros ts; cbn [parse_value]; [exact I|]. destruct ts as [|t r]; [exact I|].
  destruct t as [p|n|n|z|b|s]; try (cbn; lia).
  - destruct p; try (cbn; lia).
    + apply (beyond_le r); [cbn; lia|]. apply beyond_bind; [apply beyond_many0, IH|intros; bb].
    + apply (beyond_le r); [cbn; lia|]. apply beyond_bind; [apply beyond_many0; intros; bb|intros; bb].
  - destruct c; cbn; lia.
Qed.
Global Hint Resolve beyond_value : beyond.
Lemma beyond_argument c ts : beyond ts (parse_argument c ts). Proof. unfold parse_argument. bb. Qed.
Lemma beyond_arguments c ts : beyond ts (parse_arguments c ts).
Proof. unfold parse_arguments. destruct (peek_punct POpenRound ts); [|bb]. apply beyond_bind; [bb|]. intros. apply beyond_many1, beyond_argument. Qed.
Global Hint Resolve beyond_arguments : beyond.
Lemma beyond_directive c ts : beyond ts (parse_directive c ts). Proof. unfold parse_directive. bb. Qed.
Lemma beyond_directives c ts : beyond ts (parse_directives c ts). Proof. apply beyond_many_at, beyond_directive. Qed.
Lemma beyond_bang {A} (f : bool -> A) ts : beyond ts (let '(req, r) := parse_bang ts in POk (f req) r).
Proof. pose proof (parse_bang_length ts) as H. destruct (parse_bang ts) as [b r]. exact H. Qed.
Lemma beyond_tref fuel : forall ts, beyond ts (parse_tref fuel ts).
Proof.
  induction fuel as [|fuel IH]; intros ts; cbn [parse_tref]; [exact I|]. destruct (next_if_punct POpenSquare ts) as [r|] eqn:E.
  - apply (beyond_le r); [exact (next_length _ _ _ E)|]. apply beyond_bind; [auto|]. intros t s. apply beyond_bind; [auto with beyond|]. intros u s2. apply (beyond_bang (TList t)).
  - destruct (next_if_name ts) as [[n r]|] eqn:En; [|bb]. apply next_if_name_inv in En as ->. apply (beyond_le r); [cbn; lia|]. apply (beyond_bang (TBase n)).
Qed.
Lemma beyond_default ts : beyond ts (parse_default ts).
Proof. unfold parse_default. destruct (next_if_punct PEquals ts) as [r|] eqn:E; [|bb]. apply (beyond_le r); [exact (next_length _ _ _ E)|]. bb. Qed.
Global Hint Resolve beyond_directives beyond_tref beyond_default : beyond.
Lemma beyond_vardef ts : beyond ts (parse_vardef ts). Proof. unfold parse_vardef. bb. Qed.
Lemma beyond_vardefs ts : beyond ts (parse_vardefs ts).
Proof. unfold parse_vardefs. destruct (peek_punct POpenRound ts); [|bb]. apply beyond_bind; [bb|]. intros. apply beyond_many1, beyond_vardef. Qed.
Lemma beyond_condition ts : beyond ts (parse_condition ts). Proof. unfold parse_condition. bb. Qed.
Global Hint Resolve beyond_vardefs beyond_condition : beyond.
Lemma beyond_set_with item ts : (forall ts, beyond ts (item ts)) -> beyond ts (parse_set_with item ts).
Proof. intros H. unfold parse_set_with. apply beyond_bind; [bb|]. intros. apply beyond_many1, H. Qed.
Lemma beyond_selection fuel : forall ts, beyond ts (parse_selection fuel ts).
Proof.
  induction fuel as [|fuel IH]; intros ts; cbn [parse_selection]; [exact I|]. destruct ts as [|t rest]; [exact I|].
  destruct t as [p|n|n|z|b|s]; try (cbn; lia).
  - destruct p; try (cbn; lia). apply (beyond_le rest); [cbn; lia|]. destruct (match rest with TkName n :: _ => negb (teqb n (tx "on")) | _ => false end) eqn:En.
    + destruct rest as [|[] rest]; try discriminate En. cbn [expect_name bind]. destruct (teqb n (tx "on")); [cbn; lia|]. apply (beyond_le rest); [cbn; lia|]. bb.
    + apply beyond_bind; [destruct (peek_name_matches (tx "on") rest); bb|]. intros c r1. apply beyond_bind; [bb|]. intros ds r2. apply beyond_bind; [apply beyond_set_with; auto|]. bb.
  - apply beyond_bind.
    { destruct (peek_punct PColon rest); bb. }
    intros q r1. apply beyond_bind; [bb|]. intros args r2. apply beyond_bind; [bb|]. intros ds r3. apply beyond_bind; [|bb].
    destruct (peek_punct POpenBrace r3); [apply beyond_set_with; auto|bb].
Qed.
Lemma beyond_set ts : beyond ts (parse_set ts). Proof. apply beyond_set_with, beyond_selection. Qed.
Global Hint Resolve beyond_set : beyond.
Lemma beyond_operation ts : beyond ts (parse_operation ts).
Proof.
  unfold parse_operation. destruct (peek_optype ts) eqn:Eo.
  - destruct ts as [|[] ts]; try discriminate Eo. cbn [expect_name bind]. cbn in Eo. destruct (optype_of n); [|discriminate Eo].
    assert (K : length (snd (match next_if_name ts with Some (n, r1) => (Some n, r1) | None => (None, ts) end)) <= length ts).
    { destruct ts as [|[] ts]; cbn; lia. }
    destruct (match next_if_name ts with Some (n, r1) => (Some n, r1) | None => (None, ts) end) as [nm r1]. apply (beyond_le r1); [cbn in *; lia|]. bb.
  - destruct (peek_punct POpenBrace ts); bb.
Qed.
Lemma beyond_fragment ts : beyond ts (parse_fragment ts).
Proof.
  unfold parse_fragment. apply beyond_bind; [bb|]. intros u r0. destruct r0 as [|t r0]; [exact I|]. destruct t; try (cbn; lia). cbn [expect_name bind].
  destruct (teqb n (tx "on")); [cbn; lia|]. apply (beyond_le r0); [cbn; lia|]. bb.
Qed.

(** [ext r x y]: [x] is the result on some tokens, [y] the result on these tokens followed by [r]; unless [x] used up all
    its tokens, [y] is the same with [r] left over, otherwise [y] did not fail on those tokens *)
Definition ext {A} (r : list token) (x y : presult A) : Prop :=
  match x with
  | POk a [] => beyond r y
  | POk a s => y = POk a (s ++ r)
  | PErr e s => match e with PEFuel => True | PEEof => beyond r y | _ => y = PErr e (s ++ r) end
  end.
Definition extends {A} (p p' : list token -> presult A) : Prop := forall q r, ext r (p q) (p' (q ++ r)).
Lemma ext_bind {A B} r (x y : presult A) (f f' : A -> list token -> presult B) :
  ext r x y -> (forall a s, s <> [] -> ext r (f a s) (f' a (s ++ r))) -> (forall a s, beyond s (f a s)) -> (forall a s, beyond s (f' a s)) ->
  ext r (bind x f) (bind y f').
Proof.
  intros H1 H2 H3 H4. destruct x as [a s|e s]; cbn [bind].
  - destruct s as [|t s].
    + cbn [ext] in H1. pose proof (beyond_bind _ _ _ H1 H4) as K. specialize (H3 a []). destruct (f a []) as [b s|e s]; cbn in *.
      * destruct s; [exact K|cbn in H3; lia].
      * destruct e; auto; lia.
    + cbn [ext] in H1. rewrite H1. cbn [bind]. apply (H2 a (t :: s)). discriminate.
  - destruct e; cbn [ext] in *; auto; try (rewrite H1; reflexivity). exact (beyond_bind _ _ _ H1 H4).
Qed.
Lemma extends_intro {A} (p p' : list token -> presult A) : (forall ts, beyond ts (p ts)) -> (forall ts, beyond ts (p' ts)) ->
  (forall t q r, ext r (p (t :: q)) (p' (t :: q ++ r))) -> extends p p'.
Proof.
  intros H1 H2 H3 q r. destruct q as [|t q]; [|apply H3]. specialize (H1 []). specialize (H2 r). destruct (p []) as [b s|e s]; cbn in *.
  - destruct s; [exact H2|cbn in H1; lia].
  - destruct e; auto; lia.
Qed.
Lemma ext_ok {A} r (a : A) s : s <> [] -> ext r (POk a s) (POk a (s ++ r)).
Proof. destruct s; [congruence|reflexivity]. Qed.
Lemma ext_ok' {A} r (a : A) s : ext r (POk a s) (POk a (s ++ r)).
Proof. destruct s; cbn; [lia|reflexivity]. Qed.
(** all errors about a token *)
Lemma ext_name : extends expect_name expect_name.
Proof. apply extends_intro; auto with beyond. intros [] q r; try reflexivity. apply ext_ok'. Qed.
Lemma ext_variable : extends expect_variable expect_variable.
Proof. apply extends_intro; auto with beyond. intros [] q r; try reflexivity. apply ext_ok'. Qed.
Lemma ext_name_value v : extends (expect_name_value v) (expect_name_value v).
Proof. apply extends_intro; auto with beyond. intros [] q r; cbn; try reflexivity. destruct (teqb _ _); [apply ext_ok'|reflexivity]. Qed.
Lemma ext_punct p : extends (expect_punct p) (expect_punct p).
Proof. apply extends_intro; auto with beyond. intros [] q r; cbn; try reflexivity. destruct (punct_eqb _ _); [apply ext_ok'|reflexivity]. Qed.
Lemma ext_unexpected {A} : extends (@unexpected A) unexpected.
Proof. apply extends_intro; auto with beyond. intros [] q r; reflexivity. Qed.
Lemma next_ext p s r : s <> [] -> next_if_punct p (s ++ r) = option_map (fun x => x ++ r) (next_if_punct p s).
Proof. destruct s as [|[] s]; try congruence; intros _; cbn; try reflexivity. destruct (punct_eqb _ _); reflexivity. Qed.
Lemma peek_ext p s r : s <> [] -> peek_punct p (s ++ r) = peek_punct p s.
Proof. destruct s as [|[] s]; try congruence; reflexivity. Qed.
Ltac eb := apply ext_bind; [|intros ? ? ?; cbv beta|intros; cbv beta; bb|intros; cbv beta; bb].
Section Many.
  Context {A : Type} (item item' : list token -> presult A) (close : punct).
  Hypothesis (E : extends item item') (B : forall ts, beyond ts (item ts)) (B' : forall ts, beyond ts (item' ts)).
  Lemma ext_many0 : forall f f', f <= f' -> extends (many0 item close f) (many0 item' close f').
  Proof using E B B'.
    induction f as [|f IH]; intros f' L; [intros q r; exact I|]. destruct f' as [|f']; [lia|]. assert (L' : f <= f') by lia. specialize (IH f' L').
    pose proof (beyond_many0 item close B) as M. pose proof (beyond_many0 item' close B') as M'.
    apply extends_intro; auto. intros t q r. cbn [many0]. change (t :: q ++ r) with ((t :: q) ++ r). rewrite next_ext by discriminate.
    destruct (next_if_punct close (t :: q)) as [s|] eqn:En; [apply ext_ok'|]. cbn [option_map]. eb.
    - apply E.
    - eb; [apply IH|apply ext_ok'].
  Qed.
  Lemma beyond_next {C} (k : C) (y : presult C) s : beyond s y ->
    beyond s (match next_if_punct close s with Some r' => POk k r' | None => y end).
  Proof. intros H. destruct (next_if_punct close s) eqn:En; [|auto]. cbn. exact (next_length _ _ _ En). Qed.
  Lemma ext_many1 : forall f f', f <= f' -> extends (many1 item close f) (many1 item' close f').
  Proof using E B B'.
    induction f as [|f IH]; intros f' L; [intros q r; exact I|]. destruct f' as [|f']; [lia|]. assert (L' : f <= f') by lia. specialize (IH f' L').
    pose proof (beyond_many1 item close B) as M. pose proof (beyond_many1 item' close B') as M'.
    apply extends_intro; auto. intros t q r. cbn [many1]. change (t :: q ++ r) with ((t :: q) ++ r). apply ext_bind.
    - apply E.
    - intros a s Hs. rewrite next_ext by exact Hs. destruct (next_if_punct close s) as [s'|]; [apply ext_ok'|]. cbn [option_map]. eb; [apply IH|apply ext_ok'].
    - intros a s. apply beyond_next. bb.
    - intros a s. apply beyond_next. bb.
  Qed.
  Lemma ext_many_at : forall f f', f <= f' -> extends (many_at item f) (many_at item' f').
  Proof using E B B'.
    induction f as [|f IH]; intros f' L; [intros q r; exact I|]. destruct f' as [|f']; [lia|]. assert (L' : f <= f') by lia. specialize (IH f' L').
    pose proof (beyond_many_at item B) as M. pose proof (beyond_many_at item' B') as M'.
    apply extends_intro; auto. intros t q r. cbn [many_at]. change (t :: q ++ r) with ((t :: q) ++ r). rewrite peek_ext by discriminate.
    destruct (peek_punct PAt (t :: q)); [|apply ext_ok'; discriminate]. eb.
    - apply E.
    - eb; [apply IH|apply ext_ok'].
  Qed.
End Many.

Ltac mono L := first [assumption | rewrite ?app_length; cbn [length] in *; lia].
Lemma ext_value c : forall f f', f <= f' -> extends (parse_value c f) (parse_value c f').
Proof.
  induction f as [|f IH]; intros f' L; [intros q r; exact I|]. destruct f' as [|f']; [lia|]. assert (L' : f <= f') by lia. specialize (IH f' L').
  apply extends_intro; auto with beyond. intros t q r. cbn [parse_value].
  destruct t as [p|n|n|z|b|s]; try apply ext_ok'; [|destruct c; [reflexivity|apply ext_ok']].
  destruct p; try reflexivity.
  - eb; [|apply ext_ok']. apply ext_many0; auto with beyond. rewrite app_length. lia.
  - eb; [|apply ext_ok']. apply ext_many0; try (intros; bb; fail); [|rewrite app_length; lia].
    intros q' r'. eb; [apply ext_name|]. eb; [apply ext_punct|]. eb; [apply IH|apply ext_ok'].
Qed.
Lemma ext_argument c : extends (parse_argument c) (parse_argument c).
Proof.
  intros q r. unfold parse_argument. eb; [apply ext_name|]. eb; [apply ext_punct|]. eb; [|apply ext_ok']. apply ext_value. rewrite app_length. lia.
Qed.
Global Hint Resolve beyond_argument beyond_directive beyond_vardef : beyond.
Lemma ext_arguments c : extends (parse_arguments c) (parse_arguments c).
Proof.
  apply extends_intro; auto with beyond. intros t q r. change (t :: q ++ r) with ((t :: q) ++ r). unfold parse_arguments. rewrite peek_ext by discriminate.
  destruct (peek_punct POpenRound (t :: q)); [|apply ext_ok']. apply ext_bind; [apply ext_punct| |intros; apply beyond_many1; bb|intros; apply beyond_many1; bb].
  intros u s Hs. apply ext_many1; auto with beyond; [apply ext_argument|]. rewrite app_length. lia.
Qed.
Lemma ext_directive c : extends (parse_directive c) (parse_directive c).
Proof. intros q r. unfold parse_directive. eb; [apply ext_punct|]. eb; [apply ext_name|]. eb; [apply ext_arguments|apply ext_ok']. Qed.
Lemma ext_directives c : extends (parse_directives c) (parse_directives c).
Proof. intros q r. unfold parse_directives. apply ext_many_at; auto with beyond; [apply ext_directive|]. rewrite app_length. lia. Qed.
Lemma ext_bang {A} (f : bool -> A) : extends (fun ts => let '(req, r) := parse_bang ts in POk (f req) r) (fun ts => let '(req, r) := parse_bang ts in POk (f req) r).
Proof.
  apply extends_intro; [intros; apply beyond_bang|intros; apply beyond_bang|]. intros t q r. unfold parse_bang. change (t :: q ++ r) with ((t :: q) ++ r). rewrite next_ext by discriminate.
  destruct (next_if_punct PBang (t :: q)); apply ext_ok'.
Qed.
Lemma ext_tref : forall f f', f <= f' -> extends (parse_tref f) (parse_tref f').
Proof.
  induction f as [|f IH]; intros f' L; [intros q r; exact I|]. destruct f' as [|f']; [lia|]. assert (L' : f <= f') by lia. specialize (IH f' L').
  apply extends_intro; auto with beyond. intros t q r. cbn [parse_tref]. change (t :: q ++ r) with ((t :: q) ++ r). rewrite next_ext by discriminate.
  destruct (next_if_punct POpenSquare (t :: q)) as [s|]; cbn [option_map].
  - apply ext_bind; [apply IH| | |].
    + intros i s1 H1. apply ext_bind; [apply ext_punct| | |]; intros; try apply (beyond_bang (TList i)). apply (ext_bang (TList i)).
    + intros i s1. apply beyond_bind; [bb|]. intros. apply (beyond_bang (TList i)).
    + intros i s1. apply beyond_bind; [bb|]. intros. apply (beyond_bang (TList i)).
  - destruct t; try reflexivity. apply (ext_bang (TBase n)).
Qed.
Lemma ext_default : extends parse_default parse_default.
Proof.
  apply extends_intro; auto with beyond. intros t q r. change (t :: q ++ r) with ((t :: q) ++ r). unfold parse_default. rewrite next_ext by discriminate.
  destruct (next_if_punct PEquals (t :: q)) as [s|]; cbn [option_map]; [|apply ext_ok']. eb; [|apply ext_ok']. apply ext_value. rewrite app_length. lia.
Qed.
Lemma ext_vardef : extends parse_vardef parse_vardef.
Proof.
  intros q r. unfold parse_vardef. eb; [apply ext_variable|]. eb; [apply ext_punct|]. eb; [apply ext_tref; rewrite app_length; lia|]. eb; [apply ext_default|].
  eb; [apply ext_directives|apply ext_ok'].
Qed.
Lemma ext_vardefs : extends parse_vardefs parse_vardefs.
Proof.
  apply extends_intro; auto with beyond. intros t q r. change (t :: q ++ r) with ((t :: q) ++ r). unfold parse_vardefs. rewrite peek_ext by discriminate.
  destruct (peek_punct POpenRound (t :: q)); [|apply ext_ok']. apply ext_bind; [apply ext_punct| |intros; apply beyond_many1; bb|intros; apply beyond_many1; bb].
  intros u s Hs. apply ext_many1; auto with beyond; [apply ext_vardef|]. rewrite app_length. lia.
Qed.
Lemma ext_condition : extends parse_condition parse_condition.
Proof. intros q r. unfold parse_condition. eb; [apply ext_name_value|apply ext_name]. Qed.
Lemma ext_set_with item item' : extends item item' -> (forall ts, beyond ts (item ts)) -> (forall ts, beyond ts (item' ts)) ->
  extends (parse_set_with item) (parse_set_with item').
Proof.
  intros E B B' q r. unfold parse_set_with. apply ext_bind; [apply ext_punct| |intros; apply beyond_many1; bb|intros; apply beyond_many1; bb].
  intros u s Hs. apply ext_many1; auto. rewrite app_length. lia.
Qed.
Lemma beyond_set_opt item s : (forall ts, beyond ts (item ts)) -> beyond s (if peek_punct POpenBrace s then parse_set_with item s else POk [] s).
Proof. intros H. destruct (peek_punct POpenBrace s); [apply beyond_set_with; auto|bb]. Qed.
Lemma beyond_tail item p s : (forall ts, beyond ts (item ts)) ->
  beyond s (do (args, r2) <- parse_arguments false s; do (ds, r3) <- parse_directives false r2;
            do (sub, r4) <- (if peek_punct POpenBrace r3 then parse_set_with item r3 else POk [] r3); POk (SField (fst p) (snd p) args ds sub) r4).
Proof. intros H. apply beyond_bind; [bb|]. intros. apply beyond_bind; [bb|]. intros. apply beyond_bind; [apply beyond_set_opt; auto|]. intros; bb. Qed.
Lemma ext_selection : forall f f', f <= f' -> extends (parse_selection f) (parse_selection f').
Proof.
  induction f as [|f IH]; intros f' L; [intros q r; exact I|]. destruct f' as [|f']; [lia|]. assert (L' : f <= f') by lia. specialize (IH f' L').
  pose proof (beyond_selection f) as B. pose proof (beyond_selection f') as B'.
  apply extends_intro; try apply beyond_selection. intros t q r. cbn [parse_selection]. destruct t as [p|n|n|z|b|s]; try reflexivity.
  - destruct p; try reflexivity. destruct q as [|t q].
    + (* only the dots *)
      match goal with |- ext r ?x ?y => change (ext r (@PErr selection PEEof []) y) end. cbn [ext app].
      destruct (match r with TkName n :: _ => negb (teqb n (tx "on")) | _ => false end) eqn:En.
      * destruct r as [|[] r]; try discriminate En. cbn [expect_name bind]. destruct (teqb n (tx "on")); [cbn; lia|]. apply (beyond_le r); [cbn; lia|]. bb.
      * apply beyond_bind; [destruct (peek_name_matches (tx "on") r); bb|]. intros c r1. apply beyond_bind; [bb|]. intros ds r2. apply beyond_bind; [apply beyond_set_with; auto|]. intros; bb.
    + cbn [app]. change (match t with TkName n => negb (teqb n (tx "on")) | _ => false end) with (match t :: q with TkName n :: _ => negb (teqb n (tx "on")) | _ => false end).
      destruct (match t :: q with TkName n :: _ => negb (teqb n (tx "on")) | _ => false end) eqn:En.
      * destruct t; try discriminate En. cbn [expect_name bind]. destruct (teqb n (tx "on")); [cbn in En; discriminate En|].
        eb; [apply ext_directives|apply ext_ok'].
      * apply ext_bind.
        -- change (t :: q ++ r) with ((t :: q) ++ r). replace (peek_name_matches (tx "on") ((t :: q) ++ r)) with (peek_name_matches (tx "on") (t :: q)) by reflexivity.
           destruct (peek_name_matches (tx "on") (t :: q)); [eb; [apply ext_condition|apply ext_ok']|apply ext_ok'].
        -- intros c s Hs. apply ext_bind; [apply ext_directives| | |].
           ++ intros ds s2 Hs2. eb; [apply ext_set_with; auto|apply ext_ok'].
           ++ intros ds s2. apply beyond_bind; [apply beyond_set_with; auto|intros; bb].
           ++ intros ds s2. apply beyond_bind; [apply beyond_set_with; auto|intros; bb].
        -- intros c s. apply beyond_bind; [bb|]. intros ds s2. apply beyond_bind; [apply beyond_set_with; auto|intros; bb].
        -- intros c s. apply beyond_bind; [bb|]. intros ds s2. apply beyond_bind; [apply beyond_set_with; auto|intros; bb].
  - apply ext_bind.
    + destruct q as [|t q].
      * cbn [peek_punct expect_name bind app ext]. destruct (peek_punct PColon r) eqn:Ep; [|cbn; lia]. apply peek_punct_inv in Ep. destruct Ep as (r' & ->). cbn [expect_punct P punct_eqb bind].
        apply (beyond_le r'); [cbn; lia|]. bb.
      * cbn [app]. change (t :: q ++ r) with ((t :: q) ++ r). rewrite peek_ext by discriminate. destruct (peek_punct PColon (t :: q)).
        -- cbn [expect_name bind app]. change (t :: q ++ r) with ((t :: q) ++ r). eb; [apply ext_punct|]. eb; [apply ext_name|apply ext_ok'].
        -- cbn [expect_name bind app]. apply (ext_ok' r (None, n) (t :: q)).
    + intros p s Hs. apply ext_bind; [apply ext_arguments| | |].
      * intros args s2 Hs2. apply ext_bind; [apply ext_directives| | |].
        -- intros ds s3 Hs3. eb; [|apply ext_ok']. rewrite peek_ext by exact Hs3. destruct (peek_punct POpenBrace s3); [apply ext_set_with; auto|apply ext_ok'].
        -- intros ds s3. apply beyond_bind; [apply beyond_set_opt; auto|intros; bb].
        -- intros ds s3. apply beyond_bind; [apply beyond_set_opt; auto|intros; bb].
      * intros args s2. apply beyond_bind; [bb|]. intros ds s3. apply beyond_bind; [apply beyond_set_opt; auto|intros; bb].
      * intros args s2. apply beyond_bind; [bb|]. intros ds s3. apply beyond_bind; [apply beyond_set_opt; auto|intros; bb].
    + intros p s. apply beyond_tail; auto.
    + intros p s. apply beyond_tail; auto.
Qed.
Lemma ext_set : extends parse_set parse_set.
Proof. intros q r. unfold parse_set. apply ext_set_with; try apply beyond_selection. apply ext_selection. rewrite app_length. lia. Qed.
Lemma ext_operation : extends parse_operation parse_operation.
Proof.
  apply extends_intro; try apply beyond_operation. intros t q r. unfold parse_operation. change (t :: q ++ r) with ((t :: q) ++ r).
  replace (peek_optype ((t :: q) ++ r)) with (peek_optype (t :: q)) by reflexivity. destruct (peek_optype (t :: q)) eqn:Eo.
  - destruct t; try discriminate Eo. cbn in Eo. cbn [expect_name bind app]. destruct (optype_of n) as [ty|]; [|discriminate Eo].
    assert (K : forall nm s1, s1 <> [] -> ext r
      (do (vs, r2) <- parse_vardefs s1; do (ds, r3) <- parse_directives false r2; do (sub, r4) <- parse_set r3;
       POk {| op_explicit := true; op_type := ty; op_name := nm; op_vars := vs; op_dirs := ds; op_sel := sub |} r4)
      (do (vs, r2) <- parse_vardefs (s1 ++ r); do (ds, r3) <- parse_directives false r2; do (sub, r4) <- parse_set r3;
       POk {| op_explicit := true; op_type := ty; op_name := nm; op_vars := vs; op_dirs := ds; op_sel := sub |} r4)).
    { intros nm s1 Hs1. eb; [apply ext_vardefs|]. eb; [apply ext_directives|]. eb; [apply ext_set|]. apply ext_ok'. }
    destruct q as [|t q].
    + match goal with |- ext r ?x ?y => change (ext r (@PErr operation PEEof []) y) end. cbn [ext app].
      assert (L : length (snd (match next_if_name r with Some (n, r1) => (Some n, r1) | None => (None, r) end)) <= length r).
      { destruct r as [|[] r]; cbn; lia. }
      destruct (match next_if_name r with Some (n, r1) => (Some n, r1) | None => (None, r) end) as [nm r1]. apply (beyond_le r1); [exact L|]. bb.
    + destruct t; try (apply (K None (_ :: q)); discriminate). cbn [next_if_name app].
      destruct q as [|t' q]; [|apply (K (Some n0) (t' :: q)); discriminate].
      match goal with |- ext r ?x ?y => change (ext r (@PErr operation PEEof []) y) end. cbn [ext app]. bb.
  - rewrite peek_ext by discriminate. destruct (peek_punct POpenBrace (t :: q)); [|reflexivity]. eb; [apply ext_set|apply ext_ok'].
Qed.
Lemma ext_fragment : extends parse_fragment parse_fragment.
Proof.
  intros q r. unfold parse_fragment. apply ext_bind; [apply ext_name_value| | |].
  - intros u s Hs. destruct s as [|t s]; [congruence|]. destruct t; try reflexivity. cbn [expect_name bind app]. destruct (teqb n (tx "on")); [reflexivity|].
    eb; [apply ext_condition|]. eb; [apply ext_directives|]. eb; [apply ext_set|apply ext_ok'].
  - intros u s. destruct s as [|t s]; [exact I|]. destruct t; try (cbn; lia). cbn [expect_name bind]. destruct (teqb n (tx "on")); [cbn; lia|]. apply (beyond_le s); [cbn; lia|]. bb.
  - intros u s. destruct s as [|t s]; [exact I|]. destruct t; try (cbn; lia). cbn [expect_name bind]. destruct (teqb n (tx "on")); [cbn; lia|]. apply (beyond_le s); [cbn; lia|]. bb.
Qed.
Lemma ext_definition t q r :
  match try_definition (t :: q), try_definition (t :: q ++ r) with
  | Some x, Some y => ext r x y
  | None, None => True
  | _, _ => False
  end.
Proof.
  unfold try_definition. change (t :: q ++ r) with ((t :: q) ++ r). rewrite peek_ext by discriminate. replace (peek_optype ((t :: q) ++ r)) with (peek_optype (t :: q)) by reflexivity.
  replace (peek_name_matches (tx "fragment") ((t :: q) ++ r)) with (peek_name_matches (tx "fragment") (t :: q)) by reflexivity.
  destruct (peek_optype (t :: q) || peek_punct POpenBrace (t :: q)); [|destruct (peek_name_matches (tx "fragment") (t :: q)); [|exact I]].
  - eb; [apply ext_operation|apply ext_ok'].
  - eb; [apply ext_fragment|apply ext_ok'].
Qed.

(** ** Viable prefixes *)
Definition err_token (e : perr) : option token :=
  match e with PEName t | PEIdent t _ | PEOneOf t _ | PEToken t => Some t | PEEnum n => Some (TkName n) | _ => None end.
(** the error [e] comes after the tokens [pre], with [r] left *)
Definition hit (ts : list token) (e : perr) (pre r : list token) : Prop :=
  e = PEEof /\ ts = pre /\ r = [] \/ exists t, err_token e = Some t /\ ts = pre ++ t :: r.
Lemma hit_app m ts e pre r : hit ts e pre r -> hit (m ++ ts) e (m ++ pre) r.
Proof. intros [(H & -> & ->)|(t & H & ->)]; [left; auto|]. right. exists t. rewrite <- app_assoc. auto. Qed.
(** tokens that need no literal: punctuation, and names of letters *)
Definition simple (t : token) : bool :=
  match t with
  | TkPunct _ => true
  | TkName n | TkVar n => nonempty n && forallb (fun c => (97 <=? c) && (c <=? 122) || (65 <=? c) && (c <=? 90))%N n
  | _ => false
  end.
(** what the message of the error asks for is what comes next *)
Definition meets (e : perr) (post : list token) : bool :=
  match e with
  | PEName _ => match post with TkName _ :: _ => true | _ => false end
  | PEIdent _ v => match post with
                   | TkPunct p :: _ => teqb v (punct_display p)
                   | TkName n :: _ => teqb v n
                   | TkVar _ :: _ => teqb v (tx "$")
                   | _ => false
                   end
  | PEOneOf _ vs => match post with TkName n :: _ => tmem n vs | _ => false end
  | PEEnum n => reserved n && match post with TkName m :: _ => negb (reserved m) | _ => false end
  | _ => true
  end.
Lemma meets_app e a b : meets e a = true -> meets e (a ++ b) = true.
Proof. destruct e; cbn; auto; destruct a as [|[] a]; cbn; rewrite ?andb_false_r; auto; discriminate. Qed.
(** the tokens before the error are the beginning of something written as [tk] says *)
Definition vres {A} (tk : A -> list token) (ok : A -> Prop) (ts : list token) (e : perr) (r : list token) : Prop :=
  e = PEFuel \/ exists pre post a, (forallb simple post = true /\ meets e post = true) /\ ok a /\ tk a = pre ++ post /\ hit ts e pre r.
Definition viab {A} (p : list token -> presult A) (tk : A -> list token) (ok : A -> Prop) : Prop :=
  forall ts e r, p ts = PErr e r -> vres tk ok ts e r.
Lemma vres_step {A B} (tk : A -> list token) ok (tk' : B -> list token) ok' m ts ts' e r : ts' = m ++ ts -> vres tk ok ts e r ->
  (forall a, ok a -> exists b post, forallb simple post = true /\ ok' b /\ tk' b = m ++ tk a ++ post) -> vres tk' ok' ts' e r.
Proof.
  intros -> [H|(pre & post & a & (W & M) & O & T & Hh)] K; [left; exact H|]. right. destruct (K a O) as (b & post' & W' & O' & T').
  exists (m ++ pre), (post ++ post'), b. split; [split; [rewrite forallb_app, W, W'; reflexivity|apply meets_app, M]|]. split; [exact O'|]. split; [rewrite T', T, <- !app_assoc; reflexivity|]. apply hit_app, Hh.
Qed.
Definition hitx (ts : list token) (e : perr) (r post : list token) : Prop := hit ts e [] r /\ meets e post = true.
Lemma vres_hit {B} (tk' : B -> list token) (ok' : B -> Prop) m ts ts' e r b post : forallb simple post = true -> ts' = m ++ ts -> hitx ts e r post -> ok' b -> tk' b = m ++ post -> vres tk' ok' ts' e r.
Proof. intros W -> (H & M) O T. right. exists m, post, b. split; [split; [exact W|exact M]|]. split; [exact O|]. split; [exact T|]. rewrite <- (app_nil_r m) at 2. apply hit_app, H. Qed.
Lemma hit_name ts e r : expect_name ts = PErr e r -> forall n post, hitx ts e r (TkName n :: post).
Proof. intros H n post. split; [|destruct ts as [|[] ts]; cbn in H; injection H as <- <- || discriminate; reflexivity]. revert H. destruct ts as [|[] ts]; cbn; intros [= <- <-]; [left; auto|right; eexists; split; reflexivity..]. Qed.
Lemma hit_variable ts e r : expect_variable ts = PErr e r -> forall n post, hitx ts e r (TkVar n :: post).
Proof. intros H n post. split; [|destruct ts as [|[] ts]; cbn in H; injection H as <- <- || discriminate; reflexivity]. revert H. destruct ts as [|[] ts]; cbn; intros [= <- <-]; [left; auto|right; eexists; split; reflexivity..]. Qed.
Lemma hit_name_value v ts e r : expect_name_value v ts = PErr e r -> forall post, hitx ts e r (TkName v :: post).
Proof.
  intros H post. destruct ts as [|t ts]; [injection H as <- <-; split; [left; auto|reflexivity]|].
  assert (E : e = PEIdent t v /\ r = ts) by (destruct t; cbn in H; try destruct (teqb _ _); injection H as <- <- || discriminate; auto).
  destruct E as (-> & ->). split; [right; exists t; auto|apply teqb_refl].
Qed.
Lemma hit_punct p ts e r : expect_punct p ts = PErr e r -> forall post, hitx ts e r (TkPunct p :: post).
Proof.
  intros H post. destruct ts as [|t ts]; [injection H as <- <-; split; [left; auto|reflexivity]|].
  assert (E : e = PEIdent t (punct_display p) /\ r = ts) by (destruct t; cbn in H; try destruct (punct_eqb _ _); injection H as <- <- || discriminate; auto).
  destruct E as (-> & ->). split; [right; exists t; auto|apply teqb_refl].
Qed.
Lemma hit_unexpected {A} ts e r : @unexpected A ts = PErr e r -> forall post, hitx ts e r post.
Proof. destruct ts as [|t ts]; cbn; intros [= <- <-] post; (split; [|reflexivity]); [left; auto|right; eexists; split; reflexivity]. Qed.
Tactic Notation "be" hyp(H) ident(a) ident(r) ident(E) := apply bind_err in H; destruct H as [H|(a & r & E & H)].
Definition ok_true {A} (ok : A -> bool) : A -> Prop := fun a => ok a = true.
Section ManyViable.
  Context {A : Type} (item : list token -> presult A) (tk : A -> list token) (ok : A -> bool) (close : punct).
  Hypothesis (S : sound item tk ok) (V : viab item tk (ok_true ok)).
  Lemma viab_many0 fuel : viab (many0 item close fuel) (fun l => concat (map tk l) ++ [P close]) (ok_true (forallb ok)).
  Proof using S V.
    induction fuel as [|fuel IH]; intros ts e r H; cbn [many0] in H; [injection H as <- <-; left; reflexivity|].
    destruct (next_if_punct close ts); [discriminate|]. be H a r1 E.
    - apply (vres_step _ _ _ _ [] _ _ _ _ eq_refl (V _ _ _ H)). intros a O. exists [a], [P close]. split; [reflexivity|]. unfold ok_true in *. cbn. rewrite O, app_nil_r. auto.
    - be H l r2 E2; [|discriminate]. apply S in E. destruct E as (-> & O). apply (vres_step _ _ _ _ (tk a) _ _ _ _ eq_refl (IH _ _ _ H)).
      intros l Ol. exists (a :: l), []. split; [reflexivity|]. unfold ok_true in *. cbn. rewrite O, Ol, app_nil_r, <- app_assoc. auto.
  Qed.
  Lemma viab_many1 fuel : viab (many1 item close fuel) (fun l => concat (map tk l) ++ [P close]) (fun l => l <> [] /\ forallb ok l = true).
  Proof using S V.
    induction fuel as [|fuel IH]; intros ts e r H; cbn [many1] in H; [injection H as <- <-; left; reflexivity|].
    be H a r1 E.
    - apply (vres_step _ _ _ _ [] _ _ _ _ eq_refl (V _ _ _ H)). intros a O. exists [a], [P close]. split; [reflexivity|]. unfold ok_true in *. cbn. rewrite O, app_nil_r. split; [split; [discriminate|reflexivity]|reflexivity].
    - destruct (next_if_punct close r1); [discriminate|].
      be H l r2 E2; [|discriminate]. apply S in E. destruct E as (-> & O). apply (vres_step _ _ _ _ (tk a) _ _ _ _ eq_refl (IH _ _ _ H)).
      intros l (_ & Ol). exists (a :: l), []. split; [reflexivity|]. cbn. rewrite O, Ol, app_nil_r, <- app_assoc. split; [split; [discriminate|reflexivity]|reflexivity].
  Qed.
  Lemma viab_many_at fuel : viab (many_at item fuel) (fun l => concat (map tk l)) (ok_true (forallb ok)).
  Proof using S V.
    induction fuel as [|fuel IH]; intros ts e r H; cbn [many_at] in H; [injection H as <- <-; left; reflexivity|].
    destruct (peek_punct PAt ts); [|discriminate]. be H a r1 E.
    - apply (vres_step _ _ _ _ [] _ _ _ _ eq_refl (V _ _ _ H)). intros a O. exists [a], []. split; [reflexivity|]. unfold ok_true in *. cbn. rewrite O. auto.
    - be H l r2 E2; [|discriminate]. apply S in E. destruct E as (-> & O). apply (vres_step _ _ _ _ (tk a) _ _ _ _ eq_refl (IH _ _ _ H)).
      intros l Ol. exists (a :: l), []. split; [reflexivity|]. unfold ok_true in *. cbn. rewrite O, Ol, app_nil_r. auto.
  Qed.
End ManyViable.
Lemma viab_pair c fuel : viab (parse_value c fuel) tk_value (ok_true (value_ok c)) ->
  viab (fun ts => do (k, r1) <- expect_name ts; do (u, r2) <- expect_punct PColon r1; do (v, r3) <- parse_value c fuel r2; POk (k, v) r3)
       (fun kv => TkName (fst kv) :: P PColon :: tk_value (snd kv)) (ok_true (fun kv : name * value => value_ok c (snd kv))).
Proof.
  intros V ts e r H. be H k r1 E1.
  { pose proof (hit_name _ _ _ H) as HX. apply (vres_hit _ _ [] _ _ _ _ (tx "a", VNull) [TkName (tx "a"); P PColon; TkName (tx "null")] eq_refl eq_refl (HX _ _)); reflexivity. }
  apply expect_name_inv in E1 as ->. be H u r2 E2.
  { pose proof (hit_punct _ _ _ _ H) as HX. apply (vres_hit _ _ [TkName k] _ _ _ _ (k, VNull) [P PColon; TkName (tx "null")] eq_refl eq_refl (HX _)); reflexivity. }
  apply expect_punct_inv in E2 as ->. be H v r3 E3; [|discriminate].
  apply (vres_step _ _ _ _ [TkName k; P PColon] _ _ _ _ eq_refl (V _ _ _ H)). intros v O. exists (k, v), []. split; [reflexivity|]. rewrite app_nil_r. auto.
Qed.
Lemma viab_value c fuel : viab (parse_value c fuel) tk_value (ok_true (value_ok c)).
Proof.
  induction fuel as [|fuel IH]; intros ts e r H; cbn [parse_value] in H; [injection H as <- <-; left; reflexivity|].
  assert (K : hitx ts e r [TkName (tx "null")] -> vres tk_value (ok_true (value_ok c)) ts e r).
  { intros Hh. apply (vres_hit _ _ [] _ _ _ _ VNull [TkName (tx "null")] eq_refl eq_refl Hh); reflexivity. }
  destruct ts as [|t ts]. { injection H as <- <-. apply K. split; [left; auto|reflexivity]. }
  assert (K' : PErr (PEToken t) ts = @PErr value e r -> vres tk_value (ok_true (value_ok c)) (t :: ts) e r).
  { intros [= <- <-]. apply K. split; [right; exists t; auto|reflexivity]. }
  destruct t as [p|n|n|z|b|s]; try discriminate.
  - destruct p; try exact (K' H).
    + be H l r1 E; [|discriminate]. apply (viab_many0 _ _ _ _ (parse_value_sound c fuel) IH) in H.
      apply (vres_step _ _ _ _ [P POpenSquare] _ _ _ _ eq_refl H). intros l O. exists (VList l), []. split; [reflexivity|]. rewrite app_nil_r. split; [exact O|reflexivity].
    + be H l r1 E; [|discriminate].
      apply (viab_many0 _ _ _ _) with (2 := viab_pair c fuel IH) in H.
      * apply (vres_step _ _ _ _ [P POpenBrace] _ _ _ _ eq_refl H). intros l O. exists (VObj l), []. split; [reflexivity|]. rewrite app_nil_r. split; [exact O|reflexivity].
      * intros ts' [k v] r' H'. bi H' k' r1 E1. bi H' u r2 E2. bi H' v' r3 E3. injection H' as <- <- <-. apply expect_name_inv in E1 as ->. apply expect_punct_inv in E2 as ->.
        apply parse_value_sound in E3. destruct E3 as (-> & O). auto.
  - destruct c; [exact (K' H)|discriminate].
Qed.
Lemma viab_argument c : viab (parse_argument c) tk_argument (ok_true (fun a => value_ok c (snd a))).
Proof.
  intros ts e r H. unfold parse_argument in H. be H k r1 E1.
  { pose proof (hit_name _ _ _ H) as HX. apply (vres_hit _ _ [] _ _ _ _ (tx "a", VNull) [TkName (tx "a"); P PColon; TkName (tx "null")] eq_refl eq_refl (HX _ _)); reflexivity. }
  apply expect_name_inv in E1 as ->. be H u r2 E2.
  { pose proof (hit_punct _ _ _ _ H) as HX. apply (vres_hit _ _ [TkName k] _ _ _ _ (k, VNull) [P PColon; TkName (tx "null")] eq_refl eq_refl (HX _)); reflexivity. }
  apply expect_punct_inv in E2 as ->. be H v r3 E3; [|discriminate].
  apply (vres_step _ _ _ _ [TkName k; P PColon] _ _ _ _ eq_refl (viab_value c _ _ _ _ H)). intros v O. exists (k, v), []. split; [reflexivity|]. rewrite app_nil_r. auto.
Qed.
Lemma viab_arguments c : viab (parse_arguments c) tk_arguments (ok_true (arguments_ok c)).
Proof.
  intros ts e r H. unfold parse_arguments in H. destruct (peek_punct POpenRound ts) eqn:Ep; [|discriminate]. apply peek_punct_inv in Ep. destruct Ep as (ts' & ->).
  be H u r1 E; [discriminate H|]. apply expect_punct_inv in E. injection E as <-.
  apply (viab_many1 _ _ _ _ (parse_argument_sound c) (viab_argument c)) in H. apply (vres_step _ _ _ _ [P POpenRound] _ _ _ _ eq_refl H). intros l (N & O). exists l, []. split; [reflexivity|]. rewrite app_nil_r.
  split; [exact O|]. destruct l; [congruence|reflexivity].
Qed.
Lemma viab_directive c : viab (parse_directive c) tk_directive (ok_true (fun d => arguments_ok c (dir_args d))).
Proof.
  intros ts e r H. unfold parse_directive in H. be H u r1 E1.
  { pose proof (hit_punct _ _ _ _ H) as HX. apply (vres_hit _ _ [] _ _ _ _ {| dir_name := tx "a"; dir_args := [] |} [P PAt; TkName (tx "a")] eq_refl eq_refl (HX _)); reflexivity. }
  apply expect_punct_inv in E1 as ->. be H n r2 E2.
  { pose proof (hit_name _ _ _ H) as HX. apply (vres_hit _ _ [P PAt] _ _ _ _ {| dir_name := tx "a"; dir_args := [] |} [TkName (tx "a")] eq_refl eq_refl (HX _ _)); reflexivity. }
  apply expect_name_inv in E2 as ->. be H args r3 E3; [|discriminate].
  apply (vres_step _ _ _ _ [P PAt; TkName n] _ _ _ _ eq_refl (viab_arguments c _ _ _ H)). intros l O. exists {| dir_name := n; dir_args := l |}, []. split; [reflexivity|]. rewrite app_nil_r. auto.
Qed.
Lemma viab_directives c : viab (parse_directives c) tk_directives (ok_true (directives_ok c)).
Proof. intros ts e r H. exact (viab_many_at _ _ _ (parse_directive_sound c) (viab_directive c) _ _ _ _ H). Qed.
Lemma viab_tref fuel : viab (parse_tref fuel) tk_tref (fun _ => True).
Proof.
  induction fuel as [|fuel IH]; intros ts e r H; cbn [parse_tref] in H; [injection H as <- <-; left; reflexivity|].
  destruct (next_if_punct POpenSquare ts) as [r0|] eqn:E0.
  - apply next_if_punct_inv in E0 as ->. be H t r1 E1.
    { apply (vres_step _ _ _ _ [P POpenSquare] _ _ _ _ eq_refl (IH _ _ _ H)). intros t _. exists (TList t false), [P PCloseSquare]. split; [reflexivity|]. auto. }
    apply parse_tref_sound in E1. destruct E1 as (-> & _). be H u r2 E2.
    { pose proof (hit_punct _ _ _ _ H) as HX. apply (vres_hit _ _ (P POpenSquare :: tk_tref t) _ _ _ _ (TList t false) [P PCloseSquare] eq_refl eq_refl (HX _)); [exact I|reflexivity]. }
    destruct (parse_bang r2). discriminate.
  - destruct (next_if_name ts) as [[n r0]|]; [destruct (parse_bang r0); discriminate|]. pose proof (hit_unexpected _ _ _ H) as HX.
    apply (vres_hit _ _ [] _ _ _ _ (TBase (tx "a") false) [TkName (tx "a")] eq_refl eq_refl (HX _)); [exact I|reflexivity].
Qed.
Definition tk_default (d : option value) : list token := match d with Some d => P PEquals :: tk_value d | None => [] end.
Lemma viab_default : viab parse_default tk_default (ok_true (fun d => match d with Some d => value_ok true d | None => true end)).
Proof.
  intros ts e r H. unfold parse_default in H. destruct (next_if_punct PEquals ts) as [r0|] eqn:E0; [|discriminate]. apply next_if_punct_inv in E0 as ->.
  be H v r1 E; [|discriminate]. apply (vres_step _ _ _ _ [P PEquals] _ _ _ _ eq_refl (viab_value _ _ _ _ _ H)). intros v O. exists (Some v), []. split; [reflexivity|]. rewrite app_nil_r. auto.
Qed.
Lemma default_sound : sound parse_default tk_default (fun d => match d with Some d => value_ok true d | None => true end).
Proof.
  intros ts d r H. unfold parse_default in H. destruct (next_if_punct PEquals ts) as [r0|] eqn:E0; [|injection H as <- <-; auto]. apply next_if_punct_inv in E0 as ->.
  bi H v r1 E. injection H as <- <-. apply parse_value_sound in E. destruct E as (-> & O). auto.
Qed.
Lemma viab_vardef : viab parse_vardef tk_vardef (ok_true vardef_ok).
Proof.
  intros ts e r H. unfold parse_vardef in H. set (dv n t d := {| vd_name := n; vd_type := t; vd_default := d; vd_dirs := [] |}).
  be H n r1 E1.
  { pose proof (hit_variable _ _ _ H) as HX. apply (vres_hit _ _ [] _ _ _ _ (dv (tx "a") (TBase (tx "a") false) None) [TkVar (tx "a"); P PColon; TkName (tx "a")] eq_refl eq_refl (HX _ _)); reflexivity. }
  apply expect_variable_inv in E1 as ->. be H u r2 E2.
  { pose proof (hit_punct _ _ _ _ H) as HX. apply (vres_hit _ _ [TkVar n] _ _ _ _ (dv n (TBase (tx "a") false) None) [P PColon; TkName (tx "a")] eq_refl eq_refl (HX _)); reflexivity. }
  apply expect_punct_inv in E2 as ->. be H t r3 E3.
  { apply (vres_step _ _ _ _ [TkVar n; P PColon] _ _ _ _ eq_refl (viab_tref _ _ _ _ H)). intros t _. exists (dv n t None), []. split; [reflexivity|]. split; [reflexivity|]. reflexivity. }
  apply parse_tref_sound in E3. destruct E3 as (-> & _). be H d r4 E4.
  { apply (vres_step _ _ _ _ (TkVar n :: P PColon :: tk_tref t) _ _ _ _ eq_refl (viab_default _ _ _ H)). intros d O. exists (dv n t d), []. split; [reflexivity|]. unfold ok_true, vardef_ok in *. cbn. rewrite O. split; reflexivity. }
  apply default_sound in E4. destruct E4 as (-> & O4). be H ds r5 E5; [|discriminate].
  apply (vres_step _ _ _ _ (TkVar n :: P PColon :: tk_tref t ++ tk_default d) r4) with (2 := viab_directives _ _ _ _ H); [cbn; rewrite <- app_assoc; reflexivity|].
  intros ds O. exists {| vd_name := n; vd_type := t; vd_default := d; vd_dirs := ds |}, []. split; [reflexivity|]. unfold ok_true, vardef_ok in *. cbn [vd_default vd_dirs]. rewrite O4, O, app_nil_r. split; [reflexivity|].
  unfold tk_vardef. cbn. rewrite <- app_assoc. reflexivity.
Qed.
Lemma viab_vardefs : viab parse_vardefs tk_vardefs (ok_true (forallb vardef_ok)).
Proof.
  intros ts e r H. unfold parse_vardefs in H. destruct (peek_punct POpenRound ts) eqn:Ep; [|discriminate]. apply peek_punct_inv in Ep. destruct Ep as (ts' & ->).
  be H u r1 E; [discriminate H|]. apply expect_punct_inv in E. injection E as <-.
  apply (viab_many1 _ _ _ _ parse_vardef_sound viab_vardef) in H. apply (vres_step _ _ _ _ [P POpenRound] _ _ _ _ eq_refl H). intros l (N & O). exists l, []. split; [reflexivity|]. rewrite app_nil_r.
  split; [exact O|]. destruct l; [congruence|reflexivity].
Qed.
Lemma viab_condition : viab parse_condition (fun c => [TkName (tx "on"); TkName c]) (fun _ => True).
Proof.
  intros ts e r H. unfold parse_condition in H. be H u r1 E1.
  { pose proof (hit_name_value _ _ _ _ H) as HX. apply (vres_hit _ _ [] _ _ _ _ (tx "a") [TkName (tx "on"); TkName (tx "a")] eq_refl eq_refl (HX _)); [exact I|reflexivity]. }
  apply expect_name_value_inv in E1 as ->. pose proof (hit_name _ _ _ H) as HX. apply (vres_hit _ _ [TkName (tx "on")] _ _ _ _ (tx "a") [TkName (tx "a")] eq_refl eq_refl (HX _ _)); [exact I|reflexivity].
Qed.
Definition some_field : selection := SField None (tx "a") [] [] [].
Lemma viab_set_with item : sound item tk_selection selection_ok -> viab item tk_selection (ok_true selection_ok) ->
  viab (parse_set_with item) tk_set (ok_true set_ok).
Proof.
  intros S V ts e r H. unfold parse_set_with in H. be H u r1 E1.
  { pose proof (hit_punct _ _ _ _ H) as HX. apply (vres_hit _ _ [] _ _ _ _ [some_field] (tk_set [some_field]) eq_refl eq_refl (HX _)); reflexivity. }
  apply expect_punct_inv in E1 as ->. apply (viab_many1 _ _ _ _ S V) in H. apply (vres_step _ _ _ _ [P POpenBrace] _ _ _ _ eq_refl H).
  intros l (N & O). exists l, []. split; [reflexivity|]. rewrite app_nil_r. split; [|reflexivity]. unfold ok_true, set_ok. rewrite O. destruct l; [congruence|reflexivity].
Qed.
Lemma tk_field al n args ds sub : tk_selection (SField al n args ds sub) =
  ((match al with Some a => [TkName a; P PColon] | None => [] end) ++ [TkName n]) ++ tk_arguments args ++ tk_directives ds ++ match sub with [] => [] | _ => tk_set sub end.
Proof. cbn [tk_selection]. rewrite <- app_assoc. destruct sub; reflexivity. Qed.
Lemma viab_selection fuel : viab (parse_selection fuel) tk_selection (ok_true selection_ok).
Proof.
  induction fuel as [|fuel IH]; intros ts e r H; cbn [parse_selection] in H; [injection H as <- <-; left; reflexivity|].
  pose proof (viab_set_with _ (parse_selection_sound fuel) IH) as VS.
  assert (K : hitx ts e r [TkName (tx "a")] -> vres tk_selection (ok_true selection_ok) ts e r).
  { intros Hh. apply (vres_hit _ _ [] _ _ _ _ some_field [TkName (tx "a")] eq_refl eq_refl Hh); reflexivity. }
  destruct ts as [|t rest]. { injection H as <- <-. apply K. split; [left; auto|reflexivity]. }
  assert (K' : PErr (PEToken t) rest = @PErr selection e r -> vres tk_selection (ok_true selection_ok) (t :: rest) e r).
  { intros [= <- <-]. apply K. split; [right; exists t; auto|reflexivity]. }
  destruct t as [p|n0|n0|z|b|s]; try exact (K' H).
  - destruct p; try exact (K' H). clear K'. destruct (match rest with TkName n :: _ => negb (teqb n (tx "on")) | _ => false end) eqn:En.
    + destruct rest as [|[] rest]; try discriminate En. cbn [expect_name bind] in H. destruct (teqb n (tx "on")) eqn:Eo; [discriminate En|].
      be H ds r1 E; [|discriminate]. apply (vres_step _ _ _ _ [P PEllipse; TkName n] _ _ _ _ eq_refl (viab_directives _ _ _ _ H)). intros ds O. exists (SSpread n ds), []. split; [reflexivity|]. 
      rewrite app_nil_r. split; [|reflexivity]. unfold ok_true in *. cbn [selection_ok]. rewrite Eo. exact O.
    + be H c r1 E1.
      * destruct (peek_name_matches (tx "on") rest); [|discriminate]. be H c r1 E; [|discriminate].
        apply (vres_step _ _ _ _ [P PEllipse] _ _ _ _ eq_refl (viab_condition _ _ _ H)). intros c _. exists (SInline (Some c) [] [some_field]), (tk_set [some_field]). split; [reflexivity|]. split; reflexivity.
      * set (tc := match c with Some t => [TkName (tx "on"); TkName t] | None => [] end).
        assert (Ec : rest = tc ++ r1).
        { destruct (peek_name_matches (tx "on") rest); [|injection E1 as <- <-; reflexivity]. bi E1 c' r' E. injection E1 as <- <-. exact (parse_condition_inv _ _ _ E). }
        subst rest. be H ds r2 E2.
        -- apply (vres_step _ _ _ _ (P PEllipse :: tc) _ _ _ _ eq_refl (viab_directives _ _ _ _ H)). intros ds O. exists (SInline c ds [some_field]), (tk_set [some_field]). split; [reflexivity|]. 
           unfold ok_true in *. split; [|reflexivity]. cbn [selection_ok]. rewrite O. reflexivity.
        -- apply parse_directives_sound in E2. destruct E2 as (-> & O2). be H sub r3 E3; [|discriminate].
           apply (vres_step _ _ _ _ (P PEllipse :: tc ++ tk_directives ds) r2) with (2 := VS _ _ _ H); [cbn; rewrite <- app_assoc; reflexivity|].
           intros sub O. exists (SInline c ds sub), []. split; [reflexivity|]. unfold ok_true, set_ok in *. cbn [selection_ok]. rewrite O2. split; [exact O|]. rewrite app_nil_r. cbn. rewrite <- app_assoc. reflexivity.
  - clear K K'. be H p r1 E1.
    + destruct (peek_punct PColon rest) eqn:Ep; [|discriminate H]. apply peek_punct_inv in Ep. destruct Ep as (r1 & ->). cbn [expect_name bind] in H. rewrite expect_punct_ok in H. cbn [bind] in H.
      be H nm r2 E2; [|discriminate]. pose proof (hit_name _ _ _ H) as HX. apply (vres_hit _ _ [TkName n0; P PColon] _ _ _ _ (SField (Some n0) (tx "a") [] [] []) [TkName (tx "a")] eq_refl eq_refl (HX _ _)); reflexivity.
    + set (tp := (match fst p with Some a => [TkName a; P PColon] | None => [] end) ++ [TkName (snd p)]).
      assert (Ep : TkName n0 :: rest = tp ++ r1).
      { destruct (peek_punct PColon rest) eqn:Ep; [|injection E1 as <- <-; reflexivity]. apply peek_punct_inv in Ep. destruct Ep as (r2 & ->). cbn [expect_name bind] in E1. rewrite expect_punct_ok in E1. cbn [bind] in E1.
        bi E1 nm r3 E2. injection E1 as <- <-. apply expect_name_inv in E2 as ->. reflexivity. }
      rewrite Ep. clear Ep E1. be H args r2 E2.
      { apply (vres_step _ _ _ _ tp _ _ _ _ eq_refl (viab_arguments _ _ _ _ H)). intros args O. exists (SField (fst p) (snd p) args [] []), []. split; [reflexivity|]. unfold ok_true in *. cbn [selection_ok]. rewrite O. split; [reflexivity|].
        rewrite tk_field. reflexivity. }
      apply parse_arguments_sound in E2. destruct E2 as (-> & O2). be H ds r3 E3.
      { apply (vres_step _ _ _ _ (tp ++ tk_arguments args) r2) with (2 := viab_directives _ _ _ _ H); [rewrite <- app_assoc; reflexivity|]. intros ds O. exists (SField (fst p) (snd p) args ds []), []. split; [reflexivity|]. 
        unfold ok_true in *. cbn [selection_ok]. rewrite O, O2. split; [reflexivity|]. rewrite tk_field. fold tp. rewrite <- !app_assoc. reflexivity. }
      apply parse_directives_sound in E3. destruct E3 as (-> & O3). be H sub r4 E4; [|discriminate].
      destruct (peek_punct POpenBrace r3); [|discriminate].
      apply (vres_step _ _ _ _ (tp ++ tk_arguments args ++ tk_directives ds) r3) with (2 := VS _ _ _ H); [rewrite <- !app_assoc; reflexivity|]. intros sub O. exists (SField (fst p) (snd p) args ds sub), []. split; [reflexivity|]. 
      unfold ok_true, set_ok in *. apply andb_prop in O. destruct O as (O & O'). cbn [selection_ok]. rewrite O2, O3, O'. split; [reflexivity|]. rewrite tk_field. fold tp. rewrite app_nil_r, <- !app_assoc. destruct sub; [discriminate O|reflexivity].
Qed.
Lemma viab_set : viab parse_set tk_set (ok_true set_ok).
Proof. intros ts e r H. exact (viab_set_with _ (parse_selection_sound _) (viab_selection _) _ _ _ H). Qed.
Definition some_set : list selection := [some_field].
Lemma viab_operation ts e r : peek_optype ts || peek_punct POpenBrace ts = true -> parse_operation ts = PErr e r -> vres tk_operation operation_ok ts e r.
Proof.
  intros Pk H. unfold parse_operation in H. destruct (peek_optype ts) eqn:Eo.
  - destruct ts as [|[] ts]; try discriminate Eo. cbn [expect_name bind] in H. cbn in Eo. destruct (optype_of n) as [ty|] eqn:Ey; [|discriminate Eo]. apply optype_of_inv in Ey. subst n.
    destruct (match next_if_name ts with Some (n, r1) => (Some n, r1) | None => (None, ts) end) as [nm r1] eqn:En.
    set (tn := TkName (optype_word ty) :: match nm with Some n => [TkName n] | None => [] end).
    assert (E : TkName (optype_word ty) :: ts = tn ++ r1).
    { destruct ts as [|[] ts]; injection En as <- <-; reflexivity. }
    rewrite E. clear E En. be H vs r2 E1.
    { apply (vres_step _ _ _ _ tn _ _ _ _ eq_refl (viab_vardefs _ _ _ H)). intros vs O. exists {| op_explicit := true; op_type := ty; op_name := nm; op_vars := vs; op_dirs := []; op_sel := some_set |}, (tk_set some_set). split; [reflexivity|]. 
      split; [|reflexivity]. split; [exact O|]. split; [reflexivity|]. split; [reflexivity|]. discriminate. }
    apply parse_vardefs_sound in E1. destruct E1 as (-> & O1). be H ds r3 E2.
    { apply (vres_step _ _ _ _ (tn ++ tk_vardefs vs) r2) with (2 := viab_directives _ _ _ _ H); [rewrite <- app_assoc; reflexivity|]. intros ds O.
      exists {| op_explicit := true; op_type := ty; op_name := nm; op_vars := vs; op_dirs := ds; op_sel := some_set |}, (tk_set some_set). split; [reflexivity|]. 
      split; [|rewrite <- app_assoc; reflexivity]. split; [exact O1|]. split; [exact O|]. split; [reflexivity|]. discriminate. }
    apply parse_directives_sound in E2. destruct E2 as (-> & O2). be H sub r4 E3; [|discriminate].
    apply (vres_step _ _ _ _ (tn ++ tk_vardefs vs ++ tk_directives ds) r3) with (2 := viab_set _ _ _ H); [rewrite <- !app_assoc; reflexivity|]. intros sub O.
    exists {| op_explicit := true; op_type := ty; op_name := nm; op_vars := vs; op_dirs := ds; op_sel := sub |}, []. split; [reflexivity|]. 
    split; [|rewrite app_nil_r, <- !app_assoc; reflexivity]. split; [exact O1|]. split; [exact O2|]. split; [exact O|]. discriminate.
  - cbn in Pk. rewrite Pk in H. be H sub r1 E; [|discriminate]. apply (vres_step _ _ _ _ [] _ _ _ _ eq_refl (viab_set _ _ _ H)). intros sub O.
    exists {| op_explicit := false; op_type := OQuery; op_name := None; op_vars := []; op_dirs := []; op_sel := sub |}, []. split; [reflexivity|]. rewrite app_nil_r. split; [|reflexivity].
    split; [reflexivity|]. split; [reflexivity|]. split; [exact O|]. auto.
Qed.
Lemma viab_fragment : viab parse_fragment tk_fragment fragment_ok.
Proof.
  intros ts e r H. unfold parse_fragment in H. set (fr n c ds := {| fr_name := n; fr_cond := c; fr_dirs := ds; fr_sel := some_set |}).
  assert (Of : forall n c ds, n <> tx "on" -> directives_ok false ds = true -> fragment_ok (fr n c ds)) by (intros; repeat split; auto).
  be H u r0 E0.
  { pose proof (hit_name_value _ _ _ _ H) as HX. apply (vres_hit _ _ [] _ _ _ _ (fr (tx "a") (tx "a") []) (tk_fragment (fr (tx "a") (tx "a") [])) eq_refl eq_refl (HX _)); [|reflexivity]. apply Of; [discriminate|reflexivity]. }
  apply expect_name_value_inv in E0 as ->. be H n r1 E1.
  { pose proof (hit_name _ _ _ H) as HX. apply (vres_hit _ _ [TkName (tx "fragment")] _ _ _ _ (fr (tx "a") (tx "a") []) (tl (tk_fragment (fr (tx "a") (tx "a") []))) eq_refl eq_refl (HX _ _)); [|reflexivity]. apply Of; [discriminate|reflexivity]. }
  apply expect_name_inv in E1 as ->. destruct (teqb n (tx "on")) eqn:En.
  { injection H as <- <-. apply (vres_hit _ _ [TkName (tx "fragment")] (TkName n :: r1) _ _ _ (fr (tx "a") (tx "a") []) (tl (tk_fragment (fr (tx "a") (tx "a") []))) eq_refl eq_refl); [|apply Of; [discriminate|reflexivity]|reflexivity].
    split; [right; exists (TkName n); split; reflexivity|reflexivity]. }
  assert (Nn : n <> tx "on") by (intros ->; rewrite teqb_refl in En; discriminate En).
  be H c r2 E2.
  { apply (vres_step _ _ _ _ [TkName (tx "fragment"); TkName n] _ _ _ _ eq_refl (viab_condition _ _ _ H)). intros c _. exists (fr n c []), (tk_set some_set). split; [reflexivity|]. split; [auto|reflexivity]. }
  apply parse_condition_inv in E2 as ->. be H ds r3 E3.
  { apply (vres_step _ _ _ _ [TkName (tx "fragment"); TkName n; TkName (tx "on"); TkName c] _ _ _ _ eq_refl (viab_directives _ _ _ _ H)). intros ds O. exists (fr n c ds), (tk_set some_set). split; [reflexivity|]. split; [auto|reflexivity]. }
  apply parse_directives_sound in E3. destruct E3 as (-> & O3). be H sub r4 E4; [|discriminate].
  apply (vres_step _ _ _ _ (TkName (tx "fragment") :: TkName n :: TkName (tx "on") :: TkName c :: tk_directives ds) r3) with (2 := viab_set _ _ _ H); [cbn; reflexivity|].
  intros sub O. exists {| fr_name := n; fr_cond := c; fr_dirs := ds; fr_sel := sub |}, []. split; [reflexivity|]. split; [repeat split; auto|]. rewrite app_nil_r. reflexivity.
Qed.
Lemma viab_definition ts e r : try_definition ts = Some (PErr e r) -> vres tk_definition definition_ok ts e r.
Proof.
  unfold try_definition. destruct (peek_optype ts || peek_punct POpenBrace ts) eqn:Ep; [|destruct (peek_name_matches (tx "fragment") ts); [|discriminate]]; intros [= H].
  - be H o r1 E; [|discriminate]. apply (vres_step _ _ _ _ [] _ _ _ _ eq_refl (viab_operation _ _ _ Ep H)). intros o O. exists (inl o), []. split; [reflexivity|]. rewrite app_nil_r. auto.
  - be H o r1 E; [|discriminate]. apply (vres_step _ _ _ _ [] _ _ _ _ eq_refl (viab_fragment _ _ _ H)). intros o O. exists (inr o), []. split; [reflexivity|]. rewrite app_nil_r. auto.
Qed.

(** ** the first error of a document *)
Definition some_definition : operation + fragment := inl {| op_explicit := false; op_type := OQuery; op_name := None; op_vars := []; op_dirs := []; op_sel := some_set |}.
Lemma some_definition_ok : definition_ok some_definition.
Proof. repeat split. Qed.
(** the tokens are the beginning of those of some document *)
Definition begins (ts : list token) : Prop := exists ds post, ds <> [] /\ Forall definition_ok ds /\ concat (map tk_definition ds) = ts ++ post.
Lemma begins_nil : begins [].
Proof. exists [some_definition], (tk_definition some_definition). split; [discriminate|]. split; [repeat constructor|reflexivity]. Qed.
(** the same, with simple tokens to go on, as the error asks *)
Definition goes_on (e : perr) (ts : list token) : Prop :=
  exists ds post, ds <> [] /\ Forall definition_ok ds /\ (forallb simple post = true /\ meets e post = true) /\ concat (map tk_definition ds) = ts ++ post.
Lemma goes_on_nil t : goes_on (PEToken t) [].
Proof. exists [some_definition], (tk_definition some_definition). split; [discriminate|]. split; [repeat constructor|]. split; [split; reflexivity|]. reflexivity. Qed.
Lemma goes_on_cons e d ts : definition_ok d -> goes_on e ts -> goes_on e (tk_definition d ++ ts).
Proof. intros O (ds & post & _ & F & W & E). exists (d :: ds), post. split; [discriminate|]. split; [constructor; auto|]. split; [exact W|]. cbn. rewrite E, app_assoc. reflexivity. Qed.
Lemma begins_cons d ts : definition_ok d -> begins ts -> begins (tk_definition d ++ ts).
Proof. intros O (ds & post & _ & F & E). exists (d :: ds), post. split; [discriminate|]. split; [constructor; auto|]. cbn. rewrite E, app_assoc. reflexivity. Qed.
(** an error on a token does not depend on the tokens after it *)
Lemma definition_error_ext pre t r e : try_definition (pre ++ t :: r) = Some (PErr e r) -> e <> PEEof -> e <> PEFuel ->
  forall post, try_definition (pre ++ t :: post) = Some (PErr e post).
Proof.
  intros H N1 N2 post.
  assert (Q : exists t0 q, pre ++ [t] = t0 :: q) by (destruct pre as [|t0 q]; [exists t, []|exists t0, (q ++ [t])]; reflexivity). destruct Q as (t0 & q & Q).
  assert (A : forall x, pre ++ t :: x = t0 :: q ++ x) by (intros x; change (t :: x) with ([t] ++ x); rewrite app_assoc, Q; reflexivity).
  rewrite A in *. pose proof (ext_definition t0 q r) as K. pose proof (ext_definition t0 q post) as K'. rewrite H in K.
  destruct (try_definition (t0 :: q)) as [x|] eqn:Ex; [|contradiction]. destruct x as [a s|e' s].
  - destruct s; cbn in K; [destruct e; try congruence; lia|discriminate K].
  - destruct (try_definition_safe _ _ Ex) as (B & _).
    assert (C : PErr e r = @PErr (operation + fragment) e' (s ++ r) /\ e' <> PEEof).
    { destruct e'; cbn in K; try congruence; try (split; [exact K|discriminate]). destruct e; try congruence; lia. }
    destruct C as (C & B'). injection C as <- C. assert (s = []) as -> by (apply (f_equal (@length _)) in C; rewrite app_length in C; destruct s; [reflexivity|cbn in C; lia]).
    destruct (try_definition (t0 :: q ++ post)) as [y|]; [|contradiction]. f_equal. destruct e; cbn in K'; congruence.
Qed.
Lemma undefined_ext t r : try_definition (t :: r) = None -> forall post, try_definition (t :: post) = None.
Proof.
  intros H post. pose proof (ext_definition t [] r) as K. pose proof (ext_definition t [] post) as K'. cbn [app] in *. rewrite H in K.
  destruct (try_definition [t]); [contradiction|]. destruct (try_definition (t :: post)); [contradiction|reflexivity].
Qed.
Lemma begins_uncons d ts : definition_ok d -> begins (tk_definition d ++ ts) -> begins ts.
Proof.
  intros O (ds & post & NE & F & E). destruct ds as [|d1 ds]; [congruence|]. inversion_clear F as [|? ? O1 F']. cbn in E. rewrite <- app_assoc in E.
  pose proof (try_definition_complete d1 (concat (map tk_definition ds)) O1) as C. rewrite E, try_definition_complete in C by exact O. injection C as <- C.
  destruct ds as [|d2 ds]; [destruct ts; [apply begins_nil|discriminate C]|]. exists (d2 :: ds), post. split; [discriminate|]. split; [exact F'|]. symmetry. exact C.
Qed.
(** what cannot be read as a definition is not the beginning of a document *)
Lemma begins_reads ts : begins ts -> exists post d r, try_definition (ts ++ post) = Some (POk d r).
Proof.
  intros (ds & post & NE & F & E). destruct ds as [|d1 ds]; [congruence|]. inversion_clear F as [|? ? O1 F']. cbn in E. exists post. rewrite <- E.
  eexists _, _. apply try_definition_complete, O1.
Qed.
Lemma error_not_begins pre t r e : try_definition (pre ++ t :: r) = Some (PErr e r) -> e <> PEEof -> e <> PEFuel -> ~ begins (pre ++ [t]).
Proof.
  intros H N1 N2 B. destruct (begins_reads _ B) as (post & d & r' & C). rewrite <- app_assoc in C. cbn [app] in C.
  rewrite (definition_error_ext _ _ _ _ H N1 N2) in C. discriminate C.
Qed.
Lemma undefined_not_begins t r : try_definition (t :: r) = None -> ~ begins [t].
Proof. intros H B. destruct (begins_reads _ B) as (post & d & r' & C). cbn [app] in C. rewrite (undefined_ext _ _ H) in C. discriminate C. Qed.
