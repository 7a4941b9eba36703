(** The parser against the grammar: what it accepts is written as the grammar says, everything written so is accepted,
    and it always ends. *)
From Verif Require Import Base Ast Lexer Parser ParserSpec.
From Coq Require Import Lia.

(** ** Tactics and small facts *)
Lemma bind_ok {A B} (x : presult A) (f : A -> list token -> presult B) b r :
  bind x f = POk b r -> exists a r', x = POk a r' /\ f a r' = POk b r.
Proof. destruct x as [a r'|e r']; cbn [bind]; [eauto | discriminate]. Qed.
Lemma bind_err {A B} (x : presult A) (f : A -> list token -> presult B) e r :
  bind x f = PErr e r -> x = PErr e r \/ exists a r', x = POk a r' /\ f a r' = PErr e r.
Proof. destruct x as [a r'|e' r']; cbn [bind]; [eauto | intros [= -> ->]; auto]. Qed.
Tactic Notation "bi" hyp(H) ident(a) ident(r) ident(E) := apply bind_ok in H; destruct H as (a & r & E & H).

Lemma punct_eqb_eq p q : punct_eqb p q = true -> p = q.
Proof. destruct p, q; cbn; congruence. Qed.
Lemma punct_eqb_refl p : punct_eqb p p = true.
Proof. destruct p; reflexivity. Qed.
Lemma expect_name_inv ts n r : expect_name ts = POk n r -> ts = TkName n :: r.
Proof. destruct ts as [|[] ts]; cbn; congruence. Qed.
Lemma expect_variable_inv ts n r : expect_variable ts = POk n r -> ts = TkVar n :: r.
Proof. destruct ts as [|[] ts]; cbn; congruence. Qed.
Lemma expect_name_value_inv v ts u r : expect_name_value v ts = POk u r -> ts = TkName v :: r.
Proof. destruct ts as [|[] ts]; cbn; try congruence. destruct (teqb_spec n v); congruence. Qed.
Lemma expect_punct_inv p ts u r : expect_punct p ts = POk u r -> ts = P p :: r.
Proof. destruct ts as [|[] ts]; cbn [expect_punct]; try congruence. destruct (punct_eqb p p0) eqn:E; [apply punct_eqb_eq in E|]; unfold P; congruence. Qed.
Lemma expect_punct_ok p r : expect_punct p (P p :: r) = POk tt r.
Proof. cbn. now rewrite punct_eqb_refl. Qed.
Lemma next_if_punct_inv p ts r : next_if_punct p ts = Some r -> ts = P p :: r.
Proof. destruct ts as [|[] ts]; cbn [next_if_punct]; try congruence. destruct (punct_eqb p p0) eqn:E; [apply punct_eqb_eq in E|]; unfold P; congruence. Qed.
Lemma next_if_punct_ok p r : next_if_punct p (P p :: r) = Some r.
Proof. cbn. now rewrite punct_eqb_refl. Qed.
Lemma next_if_name_inv ts n r : next_if_name ts = Some (n, r) -> ts = TkName n :: r.
Proof. destruct ts as [|[] ts]; cbn; congruence. Qed.
Lemma peek_punct_inv p ts : peek_punct p ts = true -> exists r, ts = P p :: r.
Proof. destruct ts as [|[] ts]; cbn [peek_punct]; try congruence. intros E%punct_eqb_eq. subst. now exists ts. Qed.
Lemma peek_next p ts : peek_punct p ts = false -> next_if_punct p ts = None.
Proof. destruct ts as [|[] ts]; cbn; try congruence. now intros ->. Qed.

(** ** The loops *)
Definition sound {A} (item : list token -> presult A) (tk : A -> list token) (ok : A -> bool) : Prop :=
  forall ts a r, item ts = POk a r -> ts = tk a ++ r /\ ok a = true.
Lemma many0_sound {A} (item : list token -> presult A) tk ok close (S : sound item tk ok) fuel :
  forall ts l r, many0 item close fuel ts = POk l r -> ts = concat (map tk l) ++ P close :: r /\ forallb ok l = true.
Proof.
  induction fuel as [|fuel IH]; cbn [many0]; [discriminate|]. intros ts l r.
  destruct (next_if_punct close ts) as [r0|] eqn:E.
  - intros [= <- <-]. apply next_if_punct_inv in E. now subst.
  - intros H. bi H a r1 E1. bi H l' r2 E2. injection H as <- <-. apply S in E1. apply IH in E2.
    destruct E1 as (-> & O). destruct E2 as (-> & O'). cbn [map concat forallb]. rewrite O, O', <- app_assoc. auto.
Qed.
Lemma many1_sound {A} (item : list token -> presult A) tk ok close (S : sound item tk ok) fuel :
  forall ts l r, many1 item close fuel ts = POk l r -> ts = concat (map tk l) ++ P close :: r /\ forallb ok l = true /\ l <> [].
Proof.
  induction fuel as [|fuel IH]; cbn [many1]; [discriminate|]. intros ts l r H.
  bi H a r1 E1. apply S in E1. destruct E1 as (-> & O).
  destruct (next_if_punct close r1) as [r0|] eqn:E.
  - injection H as <- <-. apply next_if_punct_inv in E. subst. cbn [map concat forallb]. rewrite O, app_nil_r. repeat split; congruence.
  - bi H l' r2 E2. injection H as <- <-. apply IH in E2.
    destruct E2 as (-> & O' & _). cbn [map concat forallb]. rewrite O, O', <- app_assoc. repeat split; congruence.
Qed.
Lemma many_at_sound {A} (item : list token -> presult A) tk ok (S : sound item tk ok) fuel :
  forall ts l r, many_at item fuel ts = POk l r -> ts = concat (map tk l) ++ r /\ forallb ok l = true.
Proof.
  induction fuel as [|fuel IH]; cbn [many_at]; [discriminate|]. intros ts l r H.
  destruct (peek_punct PAt ts).
  - bi H a r1 E1. bi H l' r2 E2. injection H as <- <-. apply S in E1. apply IH in E2.
    destruct E1 as (-> & O). destruct E2 as (-> & O'). cbn [map concat forallb]. rewrite O, O', <- app_assoc. auto.
  - injection H as <- <-. auto.
Qed.

Lemma many0_complete {A} (item : list token -> presult A) (tk : A -> list token) (fol : list token -> Prop) close r :
  fol (P close :: r) -> forall l,
  (forall a r', In a l -> fol r' -> item (tk a ++ r') = POk a r') -> (forall a r', In a l -> fol (tk a ++ r') /\ next_if_punct close (tk a ++ r') = None) ->
  forall fuel, length l < fuel -> many0 item close fuel (concat (map tk l) ++ P close :: r) = POk l r.
Proof.
  intros F0. induction l as [|a l IH]; intros C N fuel L; (destruct fuel as [|fuel]; [cbn in L; lia|]); cbn [many0 map concat].
  - now rewrite app_nil_l, next_if_punct_ok.
  - rewrite <- app_assoc, (proj2 (N a _ (or_introl eq_refl))), C; [|now left|].
    + cbn [bind]. rewrite IH; [reflexivity | intros; apply C; auto; now right | intros; apply N; now right | cbn in L; lia].
    + destruct l as [|b l]; [exact F0|]. cbn [map concat]. rewrite <- app_assoc. apply N. right. now left.
Qed.
Lemma many1_complete {A} (item : list token -> presult A) (tk : A -> list token) (fol : list token -> Prop) close r :
  fol (P close :: r) -> forall l, l <> [] ->
  (forall a r', In a l -> fol r' -> item (tk a ++ r') = POk a r') -> (forall a r', In a l -> fol (tk a ++ r') /\ next_if_punct close (tk a ++ r') = None) ->
  forall fuel, length l <= fuel -> many1 item close fuel (concat (map tk l) ++ P close :: r) = POk l r.
Proof.
  intros F0. induction l as [|a l IH]; intros NE C N fuel L; [congruence|]. (destruct fuel as [|fuel]; [cbn in L; lia|]); cbn [many1 map concat].
  rewrite <- app_assoc, C; [|now left|].
  - cbn [bind]. destruct l as [|b l].
    + cbn [map concat]. now rewrite app_nil_l, next_if_punct_ok.
    + replace (next_if_punct close _) with (@None (list token)).
      * rewrite IH; [reflexivity | congruence | intros; apply C; auto; now right | intros; apply N; now right | cbn in L |- *; lia].
      * cbn [map concat]. rewrite <- app_assoc. symmetry. apply N. right. now left.
  - destruct l as [|b l]; [exact F0|]. cbn [map concat]. rewrite <- app_assoc. apply N. right. now left.
Qed.
Lemma many_at_complete {A} (item : list token -> presult A) (tk : A -> list token) (fol : list token -> Prop) r :
  fol r -> peek_punct PAt r = false -> forall l,
  (forall a r', In a l -> fol r' -> item (tk a ++ r') = POk a r') -> (forall a r', In a l -> fol (tk a ++ r') /\ peek_punct PAt (tk a ++ r') = true) ->
  forall fuel, length l < fuel -> many_at item fuel (concat (map tk l) ++ r) = POk l r.
Proof.
  intros F0 NA. induction l as [|a l IH]; intros C N fuel L; (destruct fuel as [|fuel]; [cbn in L; lia|]); cbn [many_at map concat].
  - now rewrite app_nil_l, NA.
  - rewrite <- app_assoc, (proj2 (N a _ (or_introl eq_refl))), C; [|now left|].
    + cbn [bind]. rewrite IH; [reflexivity | intros; apply C; auto; now right | intros; apply N; now right | cbn in L; lia].
    + destruct l as [|b l]; [exact F0|]. cbn [map concat]. rewrite <- app_assoc. apply N. right. now left.
Qed.

(** *** Ending without running out of fuel, and what is consumed *)
Definition safe {A} (k : nat) (ts : list token) (x : presult A) : Prop :=
  match x with
  | POk _ r => length r + k <= length ts
  | PErr e r => e <> PEFuel /\ e <> PEPanic /\ e <> PEEmpty /\ length r <= length ts
  end.
Lemma safe_bind {A B} j k ts (x : presult A) (f : A -> list token -> presult B) :
  safe j ts x -> (forall a r, x = POk a r -> length r + j <= length ts -> safe (k - j) r (f a r)) -> safe k ts (bind x f).
Proof.
  destruct x as [a r|e r]; cbn [safe bind]; [|auto]. intros L H. specialize (H a r eq_refl L).
  destruct (f a r); cbn [safe] in *; [lia|]. intuition lia.
Qed.
Lemma safe_weaken {A} j k ts (x : presult A) : k <= j -> safe j ts x -> safe k ts x.
Proof. destruct x; cbn; [lia|auto]. Qed.
Lemma safe_ok {A} (a : A) ts : safe 0 ts (POk a ts).
Proof. cbn. lia. Qed.
Ltac saf := cbn [safe length]; repeat split; try discriminate; cbn [length]; lia.
Lemma safe_expect_name ts : safe 1 ts (expect_name ts).
Proof. destruct ts as [|[] ts]; cbn [expect_name]; saf. Qed.
Lemma safe_expect_variable ts : safe 1 ts (expect_variable ts).
Proof. destruct ts as [|[] ts]; cbn [expect_variable]; saf. Qed.
Lemma safe_expect_name_value v ts : safe 1 ts (expect_name_value v ts).
Proof. destruct ts as [|[] ts]; cbn [expect_name_value]; try saf. destruct (teqb n v); saf. Qed.
Lemma safe_expect_punct p ts : safe 1 ts (expect_punct p ts).
Proof. destruct ts as [|[] ts]; cbn [expect_punct]; try saf. destruct (punct_eqb p p0); saf. Qed.
Lemma safe_unexpected {A} k ts : safe k ts (@unexpected A ts).
Proof. destruct ts as [|[] ts]; cbn [unexpected]; saf. Qed.
Lemma next_if_punct_length p ts r : next_if_punct p ts = Some r -> length ts = S (length r).
Proof. intros E%next_if_punct_inv. now subst. Qed.

Lemma safe_many0 {A} (item : list token -> presult A) close fuel : forall ts,
  (forall ts', length ts' <= length ts -> safe 1 ts' (item ts')) -> length ts < fuel -> safe 0 ts (many0 item close fuel ts).
Proof.
  induction fuel as [|fuel IH]; intros ts I L; [lia|]. cbn [many0].
  destruct (next_if_punct close ts) as [r|] eqn:E.
  - apply next_if_punct_length in E. cbn [safe]. lia.
  - apply (safe_bind 1); [apply I; lia|]. intros a r _ Lr. apply (safe_bind 0).
    + apply IH; [|lia]. intros; apply I; lia.
    + intros l r' _ _. apply safe_ok.
Qed.
Lemma safe_many1 {A} (item : list token -> presult A) close fuel : forall ts,
  (forall ts', length ts' <= length ts -> safe 1 ts' (item ts')) -> length ts < fuel -> safe 1 ts (many1 item close fuel ts).
Proof.
  induction fuel as [|fuel IH]; intros ts I L; [lia|]. cbn [many1].
  apply (safe_bind 1); [apply I; lia|]. intros a r _ Lr.
  destruct (next_if_punct close r) as [r'|] eqn:E.
  - apply next_if_punct_length in E. cbn [safe]. lia.
  - apply (safe_bind 0).
    + apply (safe_weaken 1); [lia|]. apply IH; [|lia]. intros; apply I; lia.
    + intros l r' _ _. apply safe_ok.
Qed.
Lemma safe_many_at {A} (item : list token -> presult A) fuel : forall ts,
  (forall ts', length ts' <= length ts -> safe 1 ts' (item ts')) -> length ts < fuel -> safe 0 ts (many_at item fuel ts).
Proof.
  induction fuel as [|fuel IH]; intros ts I L; [lia|]. cbn [many_at].
  destruct (peek_punct PAt ts); [|apply safe_ok].
  apply (safe_bind 1); [apply I; lia|]. intros a r _ Lr. apply (safe_bind 0).
  - apply IH; [|lia]. intros; apply I; lia.
  - intros l r' _ _. apply safe_ok.
Qed.

(** ** Values *)
Lemma parse_value_sound c fuel : sound (parse_value c fuel) tk_value (value_ok c).
Proof.
  induction fuel as [|fuel IH]; intros ts v r; [discriminate|]. cbn [parse_value].
  destruct ts as [|t ts]; [discriminate|]. destruct t as [p|n|n|z|b|s].
  all: try (intros [= <- <-]; auto; fail).
  - destruct p; try discriminate; intros H; bi H l r1 E; injection H as <- <-.
    + apply (many0_sound _ _ _ _ IH) in E. destruct E as (-> & O). cbn [tk_value value_ok app]. now rewrite <- app_assoc.
    + apply (many0_sound _ (fun kv => TkName (fst kv) :: P PColon :: tk_value (snd kv)) (fun kv => value_ok c (snd kv))) in E.
      * destruct E as (-> & O). cbn [tk_value value_ok app]. now rewrite <- app_assoc.
      * clear - IH. intros ts [k v] r H. bi H k' r1 E1. bi H u r2 E2. bi H v' r3 E3. injection H as <- <- <-.
        apply expect_name_inv in E1. apply expect_punct_inv in E2. apply IH in E3. destruct E3 as (-> & O). now subst.
  - destruct (teqb n (tx "true")) eqn:E1; [apply teqb_eq in E1; intros [= <- <-]; rewrite E1; auto|].
    destruct (teqb n (tx "false")) eqn:E2; [apply teqb_eq in E2; intros [= <- <-]; rewrite E2; auto|].
    destruct (teqb n (tx "null")) eqn:E3; [apply teqb_eq in E3; intros [= <- <-]; rewrite E3; auto|].
    intros [= <- <-]. split; [reflexivity|]. unfold value_ok, reserved. now rewrite E1, E2, E3.
  - destruct c; [discriminate|]. intros [= <- <-]; auto.
Qed.
Lemma tk_value_head v : exists t l, tk_value v = t :: l /\ forall p, t = P p -> p <> PCloseSquare /\ p <> PCloseBrace.
Proof.
  destruct v as [| | | |[] | | | |]; cbn [tk_value]; unfold P; eexists; eexists; (split; [reflexivity|]); try discriminate; intros p [= <-]; split; discriminate.
Qed.
Lemma concat_length_in {A B} (f : A -> list B) x l : In x l -> length (f x) <= length (concat (map f l)).
Proof. induction l as [|y l IH]; [easy|]. intros [->|I]; cbn [map concat]; rewrite app_length; [lia|]. apply IH in I. lia. Qed.
Lemma concat_length_all {A B} (f : A -> list B) l : (forall x, In x l -> f x <> []) -> length l <= length (concat (map f l)).
Proof.
  induction l as [|y l IH]; intros H; cbn [map concat length]; [lia|]. rewrite app_length.
  assert (K : f y <> []) by (apply H; now left). destruct (f y); [congruence|]. cbn [length].
  assert (K' : length l <= length (concat (map f l))) by (apply IH; intros; apply H; now right). lia.
Qed.
Lemma parse_value_complete c v : forall fuel r, value_ok c v = true -> length (tk_value v) <= fuel -> parse_value c fuel (tk_value v ++ r) = POk v r.
Proof.
  induction v as [n|z|b|s|b| |n|vs IH|es IH] using value_ind'; intros fuel r O L;
    (destruct fuel as [|fuel]; [exfalso; revert L; try destruct b; cbn; lia|]); cbn [parse_value tk_value app]; try reflexivity.
  - cbn in O. destruct c; [discriminate|]. reflexivity.
  - destruct b; reflexivity.
  - cbn in O. unfold reserved in O. apply negb_true_iff in O. apply orb_false_iff in O. destruct O as (O & ->). apply orb_false_iff in O. now destruct O as (-> & ->).
  - cbn [value_ok] in O. cbn [tk_value length] in L. rewrite app_length in L. cbn [length] in L.
    rewrite Forall_forall in IH. rewrite forallb_forall in O.
    unfold P at 1. rewrite <- app_assoc. cbn [app].
    rewrite (many0_complete _ tk_value (fun _ => True)); [reflexivity | easy | | |].
    + intros a r' I _. apply IH; auto. pose proof (concat_length_in tk_value a vs I). lia.
    + intros a r' I. split; [easy|]. destruct (tk_value_head a) as (t & l & -> & Ht). cbn [app next_if_punct].
      destruct t; try reflexivity. destruct (Ht _ eq_refl). destruct p; try reflexivity; congruence.
    + rewrite app_length. assert (length vs <= length (concat (map tk_value vs))); [|lia].
      apply concat_length_all. intros x _. destruct (tk_value_head x) as (t & l & -> & _). congruence.
  - cbn [value_ok] in O. cbn [tk_value length] in L. rewrite app_length in L. cbn [length] in L.
    rewrite Forall_forall in IH. rewrite forallb_forall in O.
    unfold P at 1. rewrite <- app_assoc. cbn [app].
    rewrite (many0_complete _ (fun kv => TkName (fst kv) :: P PColon :: tk_value (snd kv)) (fun _ => True)); [reflexivity | easy | | |].
    + intros [k v] r' I _. cbn [fst snd app expect_name bind]. rewrite expect_punct_ok. cbn [bind].
      rewrite (IH _ I); [reflexivity | exact (O _ I) |].
      pose proof (concat_length_in (fun kv => TkName (fst kv) :: P PColon :: tk_value (snd kv)) _ es I) as K. cbn [fst snd length] in K. cbn [snd]. lia.
    + intros a r' I. split; [easy|]. reflexivity.
    + rewrite app_length. assert (length es <= length (concat (map (fun kv => TkName (fst kv) :: P PColon :: tk_value (snd kv)) es))); [|lia].
      apply concat_length_all. congruence.
Qed.
Lemma safe_value c fuel : forall ts, length ts < fuel -> safe 1 ts (parse_value c fuel ts).
Proof.
  induction fuel as [|fuel IH]; intros ts L; [lia|]. cbn [parse_value].
  destruct ts as [|t ts]; [saf|]. cbn [length] in L. destruct t as [p|n|n|z|b|s]; try saf.
  - destruct p; try saf.
    + apply (safe_bind 1).
      * assert (K : safe 0 ts (many0 (parse_value c fuel) PCloseSquare (S (length ts)) ts)) by (apply safe_many0; [intros; apply IH|]; lia).
        destruct (many0 _ _ _ _); cbn [safe length] in *; intuition lia.
      * intros. apply safe_ok.
    + apply (safe_bind 1).
      * match goal with |- safe 1 (?t :: ts) ?x => assert (K : safe 0 ts x) end.
        { apply safe_many0; [|lia]. intros ts' L'. apply (safe_bind 1); [apply safe_expect_name|]. intros k r1 _ L1.
          apply (safe_bind 1); [apply (safe_weaken 1), safe_expect_punct; lia|]. intros u r2 _ L2.
          apply (safe_bind 1); [apply IH; lia|]. intros. apply safe_ok. }
        destruct (many0 _ _ _ _); cbn [safe length] in *; intuition lia.
      * intros. apply safe_ok.
  - destruct c; saf.
Qed.

(** ** Arguments and directives *)
Lemma parse_argument_sound c : sound (parse_argument c) tk_argument (fun a => value_ok c (snd a)).
Proof.
  intros ts [k v] r H. unfold parse_argument in H. bi H k' r1 E1. bi H u r2 E2. bi H v' r3 E3. injection H as <- <- <-.
  apply expect_name_inv in E1. apply expect_punct_inv in E2. apply parse_value_sound in E3. destruct E3 as (-> & O). now subst.
Qed.
Lemma parse_argument_complete c a r : value_ok c (snd a) = true -> parse_argument c (tk_argument a ++ r) = POk a r.
Proof.
  destruct a as [k v]. cbn [snd]. intros O. unfold parse_argument, tk_argument. cbn [fst snd app expect_name bind]. rewrite expect_punct_ok. cbn [bind].
  rewrite parse_value_complete; [reflexivity | exact O | rewrite app_length; lia].
Qed.
Lemma safe_argument c ts : safe 1 ts (parse_argument c ts).
Proof.
  unfold parse_argument. apply (safe_bind 1); [apply safe_expect_name|]. intros k r1 _ L1.
  apply (safe_bind 1); [apply safe_expect_punct|]. intros u r2 _ L2.
  apply (safe_bind 1); [apply safe_value; lia|]. intros. apply safe_ok.
Qed.
Lemma parse_arguments_sound c : sound (parse_arguments c) tk_arguments (arguments_ok c).
Proof.
  intros ts l r H. unfold parse_arguments in H. destruct (peek_punct POpenRound ts).
  - bi H u r1 E1. apply expect_punct_inv in E1. apply (many1_sound _ _ _ _ (parse_argument_sound c)) in H.
    destruct H as (-> & O & NE). split; [|exact O]. rewrite E1. destruct l; [congruence|]. unfold tk_arguments. cbn [app]. now rewrite <- app_assoc.
  - injection H as <- <-. auto.
Qed.
Lemma parse_arguments_complete c l r : arguments_ok c l = true -> peek_punct POpenRound r = false -> parse_arguments c (tk_arguments l ++ r) = POk l r.
Proof.
  intros O N. unfold parse_arguments. destruct l as [|a l]; [cbn [tk_arguments app]; now rewrite N|].
  set (l' := a :: l) in *. assert (E : tk_arguments l' ++ r = P POpenRound :: concat (map tk_argument l') ++ P PCloseRound :: r)
    by (unfold tk_arguments, l'; cbn [app]; now rewrite <- app_assoc).
  rewrite E. change (peek_punct POpenRound (P POpenRound :: _)) with true. cbv iota. rewrite expect_punct_ok. cbn [bind].
  unfold arguments_ok in O. rewrite forallb_forall in O.
  apply (many1_complete _ _ (fun _ => True)); [easy | unfold l'; congruence | | |].
  - intros x r' I _. apply parse_argument_complete. exact (O _ I).
  - intros x r' I. split; [easy|]. reflexivity.
  - rewrite app_length. assert (length l' <= length (concat (map tk_argument l'))); [|lia]. apply concat_length_all. intros. unfold tk_argument. congruence.
Qed.
Lemma safe_arguments c ts : safe 0 ts (parse_arguments c ts).
Proof.
  unfold parse_arguments. destruct (peek_punct POpenRound ts); [|apply safe_ok].
  apply (safe_bind 1); [apply safe_expect_punct|]. intros u r _ L. apply (safe_weaken 1); [lia|]. apply safe_many1; [|lia]. intros. apply safe_argument.
Qed.
Lemma parse_directive_sound c : sound (parse_directive c) tk_directive (fun d => arguments_ok c (dir_args d)).
Proof.
  intros ts d r H. unfold parse_directive in H. bi H u r1 E1. bi H n r2 E2. bi H l r3 E3. injection H as <- <-.
  apply expect_punct_inv in E1. apply expect_name_inv in E2. apply parse_arguments_sound in E3. destruct E3 as (-> & O). now subst.
Qed.
Lemma parse_directive_complete c d r : arguments_ok c (dir_args d) = true -> peek_punct POpenRound r = false ->
  parse_directive c (tk_directive d ++ r) = POk d r.
Proof.
  destruct d as [n l]. cbn [dir_args]. intros O N. unfold parse_directive, tk_directive. cbn [dir_name dir_args app]. rewrite expect_punct_ok. cbn [bind expect_name].
  now rewrite parse_arguments_complete.
Qed.
Lemma safe_directive c ts : safe 1 ts (parse_directive c ts).
Proof.
  unfold parse_directive. apply (safe_bind 1); [apply safe_expect_punct|]. intros u r1 _ L1.
  apply (safe_bind 0); [apply (safe_weaken 1), safe_expect_name; lia|]. intros k r2 _ L2.
  apply (safe_bind 0); [apply safe_arguments|]. intros. apply safe_ok.
Qed.
Lemma parse_directives_sound c : sound (parse_directives c) tk_directives (directives_ok c).
Proof. intros ts l r H. exact (many_at_sound _ _ _ (parse_directive_sound c) _ _ _ _ H). Qed.
Lemma parse_directives_complete c l r : directives_ok c l = true -> peek_punct POpenRound r = false -> peek_punct PAt r = false ->
  parse_directives c (tk_directives l ++ r) = POk l r.
Proof.
  intros O N1 N2. unfold parse_directives, tk_directives. unfold directives_ok in O. rewrite forallb_forall in O.
  apply (many_at_complete _ _ (fun r' => peek_punct POpenRound r' = false)); [easy | easy | | |].
  - intros x r' I F. apply parse_directive_complete; [exact (O _ I) | exact F].
  - intros x r' I. split; reflexivity.
  - rewrite app_length. assert (length l <= length (concat (map tk_directive l))); [|lia]. apply concat_length_all. intros. unfold tk_directive. congruence.
Qed.
Lemma safe_directives c ts : safe 0 ts (parse_directives c ts).
Proof. apply safe_many_at; [|lia]. intros. apply safe_directive. Qed.

(** ** Types and variable definitions *)
Lemma parse_bang_eq ts : ts = tk_bang (fst (parse_bang ts)) ++ snd (parse_bang ts).
Proof.
  unfold parse_bang. destruct (next_if_punct PBang ts) eqn:E; [apply next_if_punct_inv in E; now subst | reflexivity].
Qed.
Lemma parse_bang_ok req r : peek_punct PBang r = false -> parse_bang (tk_bang req ++ r) = (req, r).
Proof. intros N. unfold parse_bang. destruct req; cbn [tk_bang app]; [now rewrite next_if_punct_ok | now rewrite (peek_next _ _ N)]. Qed.
Lemma parse_tref_sound fuel : sound (parse_tref fuel) tk_tref (fun _ => true).
Proof.
  induction fuel as [|fuel IH]; intros ts t r H; [discriminate|]. cbn [parse_tref] in H. split; [|reflexivity].
  destruct (next_if_punct POpenSquare ts) as [r0|] eqn:E.
  - apply next_if_punct_inv in E. bi H inner r1 E1. bi H u r2 E2. apply IH in E1. destruct E1 as (-> & _). apply expect_punct_inv in E2.
    pose proof (parse_bang_eq r2) as B. destruct (parse_bang r2) as [req r3]. cbn [fst snd] in B. injection H as <- <-.
    subst ts r1 r2. cbn [tk_tref app]. now rewrite <- app_assoc.
  - destruct (next_if_name ts) as [[n r0]|] eqn:E0.
    + apply next_if_name_inv in E0. pose proof (parse_bang_eq r0) as B. destruct (parse_bang r0) as [req r3]. cbn [fst snd] in B. injection H as <- <-.
      subst ts r0. reflexivity.
    + destruct ts; discriminate.
Qed.
Lemma parse_tref_complete t : forall fuel r, length (tk_tref t) <= fuel -> peek_punct PBang r = false -> parse_tref fuel (tk_tref t ++ r) = POk t r.
Proof.
  induction t as [n req|inner IH req]; intros fuel r L N; (destruct fuel as [|fuel]; [cbn in L; lia|]); cbn [parse_tref tk_tref app].
  - cbn [next_if_punct next_if_name]. now rewrite parse_bang_ok.
  - rewrite next_if_punct_ok, <- app_assoc. cbn [app]. cbn [tk_tref length] in L. rewrite app_length in L.
    rewrite IH; [|lia|reflexivity]. cbn [bind]. rewrite expect_punct_ok. cbn [bind]. now rewrite parse_bang_ok.
Qed.
Lemma parse_bang_length ts : length (snd (parse_bang ts)) <= length ts.
Proof. unfold parse_bang. destruct (next_if_punct PBang ts) eqn:E; [apply next_if_punct_length in E|]; cbn [snd]; lia. Qed.
Lemma safe_tref fuel : forall ts, length ts < fuel -> safe 1 ts (parse_tref fuel ts).
Proof.
  induction fuel as [|fuel IH]; intros ts L; [lia|]. cbn [parse_tref].
  destruct (next_if_punct POpenSquare ts) as [r0|] eqn:E.
  - apply next_if_punct_length in E. apply (safe_bind 1).
    + specialize (IH r0 ltac:(lia)). destruct (parse_tref fuel r0); cbn [safe] in *; intuition lia.
    + intros inner r1 _ L1. apply (safe_bind 1); [apply (safe_weaken 1), safe_expect_punct; lia|]. intros u r2 _ L2.
      pose proof (parse_bang_length r2) as B. destruct (parse_bang r2). cbn [safe snd] in *. lia.
  - destruct (next_if_name ts) as [[n r0]|] eqn:E0; [|apply safe_unexpected].
    apply next_if_name_inv in E0. subst ts. pose proof (parse_bang_length r0) as B. destruct (parse_bang r0). cbn [safe snd length] in *. lia.
Qed.
Lemma parse_vardef_sound : sound parse_vardef tk_vardef vardef_ok.
Proof.
  intros ts v r H. unfold parse_vardef in H. bi H n r1 E1. bi H u r2 E2. bi H t r3 E3. bi H d r4 E4. bi H ds r5 E5. injection H as <- <-.
  apply expect_variable_inv in E1. apply expect_punct_inv in E2. apply parse_tref_sound in E3. destruct E3 as (-> & _).
  apply parse_directives_sound in E5. destruct E5 as (-> & O5).
  unfold parse_default in E4. unfold tk_vardef, vardef_ok. cbn [vd_name vd_type vd_default vd_dirs]. rewrite O5. subst ts r1. cbn [app].
  destruct (next_if_punct PEquals r3) as [r0|] eqn:E.
  - bi E4 w r6 E6. injection E4 as <- E4. apply next_if_punct_inv in E. apply parse_value_sound in E6. destruct E6 as (-> & O6).
    rewrite O6. split; [|reflexivity]. subst r3 r6. cbn [app]. rewrite <- !app_assoc. cbn [app]. now rewrite <- !app_assoc.
  - injection E4 as <- ->. cbn [app]. now rewrite <- app_assoc.
Qed.
(** what must not follow *)
Definition plain_after (ps : list punct) (r : list token) : Prop := Forall (fun p => peek_punct p r = false) ps.
Lemma peek_directives p ds r : p <> PAt -> peek_punct p r = false -> peek_punct p (tk_directives ds ++ r) = false.
Proof. intros N F. destruct ds as [|d ds]; [exact F|]. cbn. destruct p; try reflexivity. congruence. Qed.
Lemma parse_vardef_complete v r : vardef_ok v = true -> plain_after [PBang; PEquals; POpenRound; PAt] r -> parse_vardef (tk_vardef v ++ r) = POk v r.
Proof.
  destruct v as [n t d ds]. unfold vardef_ok. cbn [vd_default vd_dirs]. intros O F. apply andb_prop in O. destruct O as (O1 & O2).
  inversion_clear F as [|? ? N1 F']. inversion_clear F' as [|? ? N2 F'']. inversion_clear F'' as [|? ? N3 F3]. inversion_clear F3 as [|? ? N4 _].
  unfold parse_vardef, tk_vardef. cbn [vd_name vd_type vd_default vd_dirs app expect_variable bind]. rewrite expect_punct_ok. cbn [bind].
  assert (B : peek_punct PBang (tk_directives ds ++ r) = false) by (apply peek_directives; [discriminate | easy]).
  assert (Q : peek_punct PEquals (tk_directives ds ++ r) = false) by (apply peek_directives; [discriminate | easy]).
  rewrite <- !app_assoc, parse_tref_complete; [|rewrite app_length; lia|].
  - cbn [bind]. unfold parse_default. destruct d as [d|].
    + cbn [app]. rewrite next_if_punct_ok. rewrite parse_value_complete; [|exact O1|rewrite app_length; lia]. cbn [bind].
      now rewrite parse_directives_complete.
    + cbn [app]. rewrite (peek_next _ _ Q). cbn [bind]. now rewrite parse_directives_complete.
  - destruct d as [d|]; [reflexivity | exact B].
Qed.
Lemma safe_default ts : safe 0 ts (parse_default ts).
Proof.
  unfold parse_default. destruct (next_if_punct PEquals ts) as [r|] eqn:E; [|apply safe_ok]. apply next_if_punct_length in E.
  apply (safe_bind 0); [|intros; apply safe_ok].
  pose proof (safe_value true (S (length r)) r ltac:(lia)) as K. destruct (parse_value _ _ _); cbn [safe] in *; intuition lia.
Qed.
Lemma safe_vardef ts : safe 1 ts (parse_vardef ts).
Proof.
  unfold parse_vardef. apply (safe_bind 1); [apply safe_expect_variable|]. intros n r1 _ L1.
  apply (safe_bind 0); [apply (safe_weaken 1), safe_expect_punct; lia|]. intros u r2 _ L2.
  apply (safe_bind 0); [apply (safe_weaken 1), safe_tref; lia|]. intros t r3 _ L3.
  apply (safe_bind 0); [apply safe_default|]. intros d r4 _ L4.
  apply (safe_bind 0); [apply safe_directives|]. intros. apply safe_ok.
Qed.
Lemma parse_vardefs_sound : sound parse_vardefs tk_vardefs (forallb vardef_ok).
Proof.
  intros ts l r H. unfold parse_vardefs in H. destruct (peek_punct POpenRound ts).
  - bi H u r1 E1. apply expect_punct_inv in E1. apply (many1_sound _ _ _ _ parse_vardef_sound) in H.
    destruct H as (-> & O & NE). split; [|exact O]. rewrite E1. destruct l; [congruence|]. unfold tk_vardefs. cbn [app]. now rewrite <- app_assoc.
  - injection H as <- <-. auto.
Qed.
Lemma parse_vardefs_complete l r : forallb vardef_ok l = true -> peek_punct POpenRound r = false -> parse_vardefs (tk_vardefs l ++ r) = POk l r.
Proof.
  intros O N. unfold parse_vardefs. destruct l as [|a l]; [cbn [tk_vardefs app]; now rewrite N|].
  set (l' := a :: l) in *. assert (E : tk_vardefs l' ++ r = P POpenRound :: concat (map tk_vardef l') ++ P PCloseRound :: r)
    by (unfold tk_vardefs, l'; cbn [app]; now rewrite <- app_assoc).
  rewrite E. change (peek_punct POpenRound (P POpenRound :: _)) with true. cbv iota. rewrite expect_punct_ok. cbn [bind].
  rewrite forallb_forall in O.
  apply (many1_complete _ _ (plain_after [PBang; PEquals; POpenRound; PAt])); [repeat constructor | unfold l'; congruence | | |].
  - intros x r' I F. apply parse_vardef_complete; [exact (O _ I) | exact F].
  - intros x r' I. split; [repeat constructor | reflexivity].
  - rewrite app_length. assert (length l' <= length (concat (map tk_vardef l'))); [|lia]. apply concat_length_all. intros. unfold tk_vardef. congruence.
Qed.
Lemma safe_vardefs ts : safe 0 ts (parse_vardefs ts).
Proof.
  unfold parse_vardefs. destruct (peek_punct POpenRound ts); [|apply safe_ok].
  apply (safe_bind 1); [apply safe_expect_punct|]. intros u r _ L. apply (safe_weaken 1); [lia|]. apply safe_many1; [|lia]. intros. apply safe_vardef.
Qed.
