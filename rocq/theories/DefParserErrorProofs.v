(** Where the parser of definitions fails: the tokens before the offending one can be completed to a document, and with it they
    cannot, as [ParserErrorProofs.v]. *)
From Coq Require Import String.
From Verif Require Import Base Ast Lexer Parser ParserSpec ParserProofs ParserDocProofs ParserErrorProofs DefParser DefParserSpec DefParserProofs.
From Coq Require Import Lia.

(** ** Consumption *)
Lemma beyond_desc {A} ts (f : option text -> list token -> presult A) : (forall d r, beyond r (f d r)) -> beyond ts (let '(d, r) := next_if_string ts in f d r).
Proof. intros H. destruct (next_if_string ts) as [d r] eqn:E. apply next_if_string_length in E. exact (beyond_le _ _ _ E (H d r)). Qed.
Lemma beyond_ivd ts : beyond ts (parse_ivd ts).
Proof. apply beyond_desc. intros. bb. Qed.
Global Hint Resolve beyond_ivd : beyond.
Lemma beyond_args_def ts : beyond ts (parse_ivds_args ts).
Proof. unfold parse_ivds_args. destruct (peek_punct POpenRound ts); [|bb]. apply beyond_bind; [bb|]. intros. apply beyond_many1, beyond_ivd. Qed.
Global Hint Resolve beyond_args_def : beyond.
Lemma beyond_fdef ts : beyond ts (parse_fdef ts).
Proof. apply beyond_desc. intros. bb. Qed.
Global Hint Resolve beyond_fdef : beyond.
Lemma beyond_fdefs ts : beyond ts (parse_fdefs ts).
Proof. unfold parse_fdefs. apply beyond_bind; [bb|]. intros. apply beyond_bind; [apply beyond_many1; bb|]. intros. bb. Qed.
Definition evd_body (d : option text) (r0 : list token) : presult evd :=
  do (n, r1) <- expect_name r0;
  if teqb n (tx "null") || teqb n (tx "true") || teqb n (tx "false") then PErr (PEEnum n) r1
  else do (ds, r2) <- parse_directives true r1; POk {| ev_name := n; ev_desc := d; ev_dirs := ds |} r2.
Lemma beyond_evd_body d r : beyond r (evd_body d r).
Proof.
  unfold evd_body. destruct r as [|[] r]; cbn [expect_name bind]; try (cbn; lia). destruct (_ || _); [cbn; lia|]. apply (beyond_le r); [cbn; lia|]. bb.
Qed.
Lemma beyond_evd ts : beyond ts (parse_evd ts).
Proof. apply (beyond_desc ts evd_body). intros. apply beyond_evd_body. Qed.
Global Hint Resolve beyond_fdefs beyond_evd : beyond.
Lemma beyond_evds ts : beyond ts (parse_evds ts).
Proof. unfold parse_evds. apply beyond_bind; [bb|]. intros. apply beyond_many1; bb. Qed.
Lemma beyond_input_fields ts : beyond ts (parse_input_fields ts).
Proof. unfold parse_input_fields. apply beyond_bind; [bb|]. intros. apply beyond_many1; bb. Qed.
Global Hint Resolve beyond_evds beyond_input_fields : beyond.
Lemma beyond_many_sep {A} (item : list token -> presult A) sep : (forall ts, beyond ts (item ts)) -> forall fuel ts, beyond ts (many_sep item sep fuel ts).
Proof.
  intros H. induction fuel as [|fuel IH]; intros ts; cbn [many_sep]; [exact I|]. destruct (next_if_punct sep ts) as [r|] eqn:E; [|bb].
  apply (beyond_le r); [exact (next_length _ _ _ E)|]. bb.
Qed.
Lemma beyond_sep_list {A} (item : list token -> presult A) sep : (forall ts, beyond ts (item ts)) -> forall ts, beyond ts (parse_sep_list item sep ts).
Proof.
  intros H ts. unfold parse_sep_list. set (r0 := match next_if_punct sep ts with Some r => r | None => ts end).
  apply (beyond_le r0); [unfold r0; destruct (next_if_punct sep ts) eqn:E; [exact (next_length _ _ _ E)|lia]|]. apply beyond_bind; [auto|]. intros. apply beyond_bind; [apply beyond_many_sep; auto|]. bb.
Qed.
Lemma beyond_implements ts : beyond ts (parse_implements ts).
Proof. unfold parse_implements. destruct (peek_name_matches _ ts); [|bb]. apply beyond_bind; [bb|]. intros. apply beyond_sep_list. bb. Qed.
Lemma beyond_members ts : beyond ts (parse_members ts).
Proof. apply beyond_sep_list. bb. Qed.
Lemma beyond_location ts : beyond ts (parse_location ts).
Proof. unfold parse_location. destruct ts as [|[] r]; cbn [expect_name bind]; try (cbn; lia). destruct (dloc_of n); cbn; lia. Qed.
Lemma beyond_locations ts : beyond ts (parse_locations ts).
Proof. apply beyond_sep_list, beyond_location. Qed.
Lemma beyond_root ts : beyond ts (parse_root ts).
Proof. unfold parse_root. destruct ts as [|[] r]; cbn [expect_name bind]; try (cbn; lia). destruct (optype_of n); [|cbn; lia]. apply (beyond_le r); [cbn; lia|]. bb. Qed.
Global Hint Resolve beyond_implements beyond_members beyond_location beyond_locations beyond_root : beyond.

(** ** Extension *)
Lemma ext_desc {A} (f f' : option text -> list token -> presult A) : (forall d, extends (f d) (f' d)) -> (forall d r, beyond r (f d r)) -> (forall d r, beyond r (f' d r)) ->
  extends (fun ts => let '(d, r) := next_if_string ts in f d r) (fun ts => let '(d, r) := next_if_string ts in f' d r).
Proof.
  intros E B B'. apply extends_intro; try (intros; apply beyond_desc; auto). intros t q r. destruct t; cbn [next_if_string]; try apply (E None (_ :: q) r). apply E.
Qed.
Lemma ext_ivd : extends parse_ivd parse_ivd.
Proof.
  apply ext_desc; try solve [intros; bb]. intros d q r. eb; [apply ext_name|]. eb; [apply ext_punct|]. eb; [apply ext_tref; rewrite app_length; lia|]. eb; [apply ext_default|].
  eb; [apply ext_directives|apply ext_ok'].
Qed.
Lemma ext_args_def : extends parse_ivds_args parse_ivds_args.
Proof.
  apply extends_intro; auto with beyond. intros t q r. change (t :: q ++ r) with ((t :: q) ++ r). unfold parse_ivds_args. rewrite peek_ext by discriminate.
  destruct (peek_punct POpenRound (t :: q)); [|apply ext_ok']. apply ext_bind; [apply ext_punct| |intros; apply beyond_many1; bb|intros; apply beyond_many1; bb].
  intros u s Hs. apply ext_many1; auto with beyond; [apply ext_ivd|]. rewrite app_length. lia.
Qed.
Lemma ext_fdef : extends parse_fdef parse_fdef.
Proof.
  apply ext_desc; try solve [intros; bb]. intros d q r. eb; [apply ext_name|]. eb; [apply ext_args_def|]. eb; [apply ext_punct|]. eb; [apply ext_tref; rewrite app_length; lia|].
  eb; [apply ext_directives|apply ext_ok'].
Qed.
Lemma ext_block {A B} (item : list token -> presult A) (g : list A -> B) : extends item item -> (forall ts, beyond ts (item ts)) ->
  extends (fun ts => do (u, r) <- expect_punct POpenBrace ts; do (l, r') <- many1 item PCloseBrace (S (length r)) r; POk (g l) r')
          (fun ts => do (u, r) <- expect_punct POpenBrace ts; do (l, r') <- many1 item PCloseBrace (S (length r)) r; POk (g l) r').
Proof.
  intros E Bd q r. assert (K : forall s, beyond s (do (l, r') <- many1 item PCloseBrace (S (length s)) s; POk (g l) r')) by (intros s; apply beyond_bind; [apply beyond_many1, Bd|intros; bb]).
  apply ext_bind; [apply ext_punct| |intros; apply K|intros; apply K]. intros u s Hs. eb; [|apply ext_ok']. apply ext_many1; auto. rewrite app_length. lia.
Qed.
Lemma bind_ok {A} (x : presult A) : bind x POk = x.
Proof. destruct x; reflexivity. Qed.
Lemma ext_block' {A} (item : list token -> presult A) : extends item item -> (forall ts, beyond ts (item ts)) ->
  extends (fun ts => do (u, r) <- expect_punct POpenBrace ts; many1 item PCloseBrace (S (length r)) r)
          (fun ts => do (u, r) <- expect_punct POpenBrace ts; many1 item PCloseBrace (S (length r)) r).
Proof.
  intros E Bd q r. apply ext_bind; [apply ext_punct| |intros; apply beyond_many1, Bd|intros; apply beyond_many1, Bd]. intros u s Hs. apply ext_many1; auto. rewrite app_length. lia.
Qed.
Lemma ext_fdefs : extends parse_fdefs parse_fdefs.
Proof. exact (ext_block parse_fdef (cons typename_field) ext_fdef beyond_fdef). Qed.
Lemma ext_evd : extends parse_evd parse_evd.
Proof.
  apply (ext_desc evd_body evd_body); try (intros; apply beyond_evd_body). intros d. apply extends_intro; try (intros; apply beyond_evd_body). intros t q r. unfold evd_body.
  destruct t; cbn [expect_name bind]; try reflexivity. destruct (_ || _); [reflexivity|]. eb; [apply ext_directives|apply ext_ok'].
Qed.
Lemma ext_evds : extends parse_evds parse_evds.
Proof. exact (ext_block' parse_evd ext_evd beyond_evd). Qed.
Lemma ext_input_fields : extends parse_input_fields parse_input_fields.
Proof. exact (ext_block' parse_ivd ext_ivd beyond_ivd). Qed.
Section Sep.
  Context {A : Type} (item : list token -> presult A) (sep : punct).
  Hypothesis (E : extends item item) (Bd : forall ts, beyond ts (item ts)).
  Lemma ext_many_sep : forall f f', f <= f' -> extends (many_sep item sep f) (many_sep item sep f').
  Proof using E Bd.
    induction f as [|f IH]; intros f' L; [intros q r; exact I|]. destruct f' as [|f']; [lia|]. assert (L' : f <= f') by lia. specialize (IH f' L').
    pose proof (beyond_many_sep item sep Bd) as M.
    apply extends_intro; auto. intros t q r. cbn [many_sep]. change (t :: q ++ r) with ((t :: q) ++ r). rewrite next_ext by discriminate.
    destruct (next_if_punct sep (t :: q)) as [s|] eqn:En; [|apply ext_ok']. cbn [option_map]. eb; [apply E|]. eb; [apply IH|apply ext_ok'].
  Qed.
  Lemma ext_sep_list : extends (parse_sep_list item sep) (parse_sep_list item sep).
  Proof using E Bd.
    pose proof (beyond_many_sep item sep Bd) as M. apply extends_intro; try (intros; apply beyond_sep_list; auto). intros t q r. unfold parse_sep_list. change (t :: q ++ r) with ((t :: q) ++ r). rewrite next_ext by discriminate.
    assert (K : forall s, ext r (do (a, r1) <- item s; do (l, r2) <- many_sep item sep (S (length r1)) r1; POk (a :: l) r2)
                                (do (a, r1) <- item (s ++ r); do (l, r2) <- many_sep item sep (S (length r1)) r1; POk (a :: l) r2)).
    { intros s. eb; [apply E|]. eb; [|apply ext_ok']. apply ext_many_sep. rewrite app_length. lia. }
    destruct (next_if_punct sep (t :: q)) as [s|]; cbn [option_map]; apply K.
  Qed.
End Sep.
Lemma ext_implements : extends parse_implements parse_implements.
Proof.
  apply extends_intro; auto with beyond. intros t q r. unfold parse_implements. change (t :: q ++ r) with ((t :: q) ++ r).
  replace (peek_name_matches (tx "implements") ((t :: q) ++ r)) with (peek_name_matches (tx "implements") (t :: q)) by reflexivity.
  destruct (peek_name_matches (tx "implements") (t :: q)); [|apply ext_ok']. apply ext_bind; [apply ext_name_value| |intros; apply beyond_sep_list; bb|intros; apply beyond_sep_list; bb].
  intros u s _. apply ext_sep_list; [apply ext_name|bb].
Qed.
Lemma ext_members : extends parse_members parse_members.
Proof. apply ext_sep_list; [apply ext_name|bb]. Qed.
Lemma ext_location : extends parse_location parse_location.
Proof.
  apply extends_intro; auto with beyond. intros t q r. unfold parse_location. destruct t; cbn [expect_name bind]; try reflexivity. destruct (dloc_of n); [apply ext_ok'|reflexivity].
Qed.
Lemma ext_locations : extends parse_locations parse_locations.
Proof. apply ext_sep_list; [apply ext_location|bb]. Qed.
Lemma ext_root : extends parse_root parse_root.
Proof.
  apply extends_intro; auto with beyond. intros t q r. unfold parse_root. destruct t; cbn [expect_name bind]; try reflexivity. destruct (optype_of n); [|reflexivity].
  eb; [apply ext_punct|]. eb; [apply ext_name|apply ext_ok'].
Qed.

(** ** What comes after the keyword of a definition *)
Definition scalar_body (desc : option text) (r1 : list token) : presult sysdef :=
  as_type (do (n, r2) <- expect_name r1; do (ds, r3) <- parse_directives true r2; POk (DScalar {| sc_name := n; sc_desc := desc; sc_dirs := ds |}) r3).
Definition object_body (desc : option text) (r1 : list token) : presult sysdef :=
  as_type (do (n, r2) <- expect_name r1; do (is_, r3) <- parse_implements r2; do (ds, r4) <- parse_directives true r3; do (fs, r5) <- parse_fdefs r4;
           POk (DObject {| ob_name := n; ob_desc := desc; ob_ifaces := is_; ob_dirs := ds; ob_fields := fs; ob_builtin := false |}) r5).
Definition interface_body (desc : option text) (r1 : list token) : presult sysdef :=
  as_type (do (n, r2) <- expect_name r1; do (is_, r3) <- parse_implements r2; do (ds, r4) <- parse_directives true r3; do (fs, r5) <- parse_fdefs r4;
           POk (DInterface {| if_name := n; if_desc := desc; if_ifaces := is_; if_dirs := ds; if_fields := fs |}) r5).
Definition union_body (desc : option text) (r1 : list token) : presult sysdef :=
  as_type (do (n, r2) <- expect_name r1; do (ds, r3) <- parse_directives true r2; do (u', r4) <- expect_punct PEquals r3; do (ms, r5) <- parse_members r4;
           POk (DUnion {| un_name := n; un_desc := desc; un_dirs := ds; un_members := ms; un_fields := [typename_field] |}) r5).
Definition input_body (desc : option text) (r1 : list token) : presult sysdef :=
  as_type (do (n, r2) <- expect_name r1; do (ds, r3) <- parse_directives true r2; do (fs, r4) <- parse_input_fields r3;
           POk (DInput {| io_name := n; io_desc := desc; io_dirs := ds; io_fields := fs |}) r4).
Definition enum_body (desc : option text) (r1 : list token) : presult sysdef :=
  as_type (do (n, r2) <- expect_name r1; do (ds, r3) <- parse_directives true r2; do (vs, r4) <- parse_evds r3;
           POk (DEnum {| en_name := n; en_desc := desc; en_dirs := ds; en_values := vs; en_builtin := false |}) r4).
Definition schema_body (desc : option text) (r1 : list token) : presult sysdef :=
  do (e, r) <- (do (ds, r2) <- parse_directives true r1; do (u', r3) <- expect_punct POpenBrace r2; do (l, r4) <- many1 parse_root PCloseBrace (S (length r3)) r3;
                POk {| es_desc := desc; es_dirs := ds; es_roots := l |} r4); POk (SysSchema e) r.
Definition repeatable_of (r4 : list token) : bool * list token :=
  match next_if_name_matches (tx "repeatable") r4 with Some r => (true, r) | None => (false, r4) end.
Definition directive_body (desc : option text) (r1 : list token) : presult sysdef :=
  do (d, r) <- (do (u', r2) <- expect_punct PAt r1; do (n, r3) <- expect_name r2; do (args, r4) <- parse_ivds_args r3;
                let '(rep, r5) := repeatable_of r4 in
                do (u'', r6) <- expect_name_value (tx "on") r5; do (ls, r7) <- parse_locations r6;
                POk {| dd_name := n; dd_desc := desc; dd_args := args; dd_repeatable := rep; dd_locs := ls; dd_builtin := false |} r7); POk (SysDirective d) r.
Definition body_of (n : text) : option (option text -> list token -> presult sysdef) :=
  if teqb n (tx "scalar") then Some scalar_body
  else if teqb n (tx "type") then Some object_body
  else if teqb n (tx "input") then Some input_body
  else if teqb n (tx "enum") then Some enum_body
  else if teqb n (tx "union") then Some union_body
  else if teqb n (tx "interface") then Some interface_body
  else if teqb n (tx "schema") then Some schema_body
  else if teqb n (tx "directive") then Some directive_body
  else None.
Lemma try_sysdef_body d n r : try_sysdef (tk_desc d ++ TkName n :: r) = option_map (fun k => k d r) (body_of n).
Proof.
  unfold try_sysdef, body_of. replace (next_identifier (tk_desc d ++ TkName n :: r)) with (Some n) by (destruct d; reflexivity).
  repeat (match goal with |- (if teqb n ?w then _ else _) = _ => destruct (teqb_spec n w) as [->|_] end; [|]); try reflexivity;
    unfold parse_scalar, parse_object, parse_input, parse_enum, parse_union, parse_interface, parse_esdef, parse_ddef; rewrite next_if_string_ok; cbn [expect_name_value]; rewrite teqb_refl; reflexivity.
Qed.
(** what a list of tokens is that is tried as a definition *)
Lemma try_sysdef_cases ts : (exists d n r k, ts = tk_desc d ++ TkName n :: r /\ body_of n = Some k /\ try_sysdef ts = Some (k d r)) \/ try_sysdef ts = None.
Proof.
  assert (K : forall d n r, ts = tk_desc d ++ TkName n :: r -> (exists d n r k, ts = tk_desc d ++ TkName n :: r /\ body_of n = Some k /\ try_sysdef ts = Some (k d r)) \/ try_sysdef ts = None).
  { intros d n r ->. rewrite try_sysdef_body. destruct (body_of n) as [k|] eqn:E; [left; exists d, n, r, k; auto|right; reflexivity]. }
  destruct ts as [|[p|n|n|z|b|s] ts]; try (right; reflexivity); [exact (K None n ts eq_refl)|]. destruct ts as [|[p|n|n|z|b|s'] ts]; try (right; reflexivity). exact (K (Some s) n ts eq_refl).
Qed.
Lemma beyond_as_type r x : beyond r x -> beyond r (as_type x).
Proof. intros H. unfold as_type. apply beyond_bind; [exact H|intros; bb]. Qed.
Lemma ext_as_type r x y : ext r x y -> ext r (as_type x) (as_type y).
Proof. intros H. unfold as_type. eb; [exact H|apply ext_ok']. Qed.
Lemma repeatable_length r : length (snd (repeatable_of r)) <= length r.
Proof. unfold repeatable_of. destruct r as [|[] r]; cbn; try lia. destruct (teqb _ _); cbn; lia. Qed.
Lemma beyond_schema_tail desc ds s : beyond s (do (u', r3) <- expect_punct POpenBrace s; do (l, r4) <- many1 parse_root PCloseBrace (S (length r3)) r3; POk {| es_desc := desc; es_dirs := ds; es_roots := l |} r4).
Proof. apply beyond_bind; [bb|]. intros. apply beyond_bind; [apply beyond_many1; bb|intros; bb]. Qed.
Definition directive_tail (desc : option text) (n : name) (args : list ivd) (r4 : list token) : presult ddef :=
  let '(rep, r5) := repeatable_of r4 in
  do (u'', r6) <- expect_name_value (tx "on") r5; do (ls, r7) <- parse_locations r6;
  POk {| dd_name := n; dd_desc := desc; dd_args := args; dd_repeatable := rep; dd_locs := ls; dd_builtin := false |} r7.
Lemma beyond_directive_tail desc n args r : beyond r (directive_tail desc n args r).
Proof. unfold directive_tail. pose proof (repeatable_length r) as L. destruct (repeatable_of r) as [rep r5]. apply (beyond_le r5); [exact L|]. bb. Qed.
Lemma ext_directive_tail desc n args : extends (directive_tail desc n args) (directive_tail desc n args).
Proof.
  apply extends_intro; try (intros; apply beyond_directive_tail). intros t q r. unfold directive_tail.
  assert (K : forall rep s, ext r (do (u'', r6) <- expect_name_value (tx "on") s; do (ls, r7) <- parse_locations r6; POk {| dd_name := n; dd_desc := desc; dd_args := args; dd_repeatable := rep; dd_locs := ls; dd_builtin := false |} r7)
    (do (u'', r6) <- expect_name_value (tx "on") (s ++ r); do (ls, r7) <- parse_locations r6; POk {| dd_name := n; dd_desc := desc; dd_args := args; dd_repeatable := rep; dd_locs := ls; dd_builtin := false |} r7)).
  { intros rep s. eb; [apply ext_name_value|]. eb; [apply ext_locations|apply ext_ok']. }
  unfold repeatable_of. destruct t; try apply (K false (_ :: q)). cbn [next_if_name_matches]. destruct (teqb n0 (tx "repeatable")); [apply K|apply (K false (_ :: q))].
Qed.
Lemma body_beyond n k d r : body_of n = Some k -> beyond r (k d r).
Proof.
  unfold body_of. repeat (match goal with |- (if ?c then _ else _) = _ -> _ => destruct c end; [intros [= <-]|]); try discriminate.
  1-6: unfold scalar_body, object_body, input_body, enum_body, union_body, interface_body; apply beyond_as_type; bb.
  - unfold schema_body. apply beyond_bind; [|intros; bb]. apply beyond_bind; [bb|]. intros. apply beyond_schema_tail.
  - unfold directive_body. apply beyond_bind; [|intros; bb]. do 3 (apply beyond_bind; [bb|]; intros). apply (beyond_directive_tail d).
Qed.
Lemma body_extends n k d : body_of n = Some k -> extends (k d) (k d).
Proof.
  unfold body_of. repeat (match goal with |- (if ?c then _ else _) = _ -> _ => destruct c end; [intros [= <-]|]); try discriminate; intros q r.
  1-6: apply ext_as_type; eb; [apply ext_name|].
  - eb; [apply ext_directives|apply ext_ok'].
  - eb; [apply ext_implements|]. eb; [apply ext_directives|]. eb; [apply ext_fdefs|apply ext_ok'].
  - eb; [apply ext_directives|]. eb; [apply ext_input_fields|apply ext_ok'].
  - eb; [apply ext_directives|]. eb; [apply ext_evds|apply ext_ok'].
  - eb; [apply ext_directives|]. eb; [apply ext_punct|]. eb; [apply ext_members|apply ext_ok'].
  - eb; [apply ext_implements|]. eb; [apply ext_directives|]. eb; [apply ext_fdefs|apply ext_ok'].
  - unfold schema_body. apply ext_bind; [|intros; apply ext_ok'|intros; bb|intros; bb].
    apply ext_bind; [apply ext_directives| |intros; apply beyond_schema_tail|intros; apply beyond_schema_tail]. intros ds s _.
    apply (ext_block parse_root (fun l => {| es_desc := d; es_dirs := ds; es_roots := l |}) ext_root beyond_root).
  - unfold directive_body. apply ext_bind; [|intros; apply ext_ok'|intros; bb|intros; bb].
    assert (B1 : forall n s, beyond s (do (args, r4) <- parse_ivds_args s; directive_tail d n args r4)) by (intros; apply beyond_bind; [bb|intros; apply beyond_directive_tail]).
    assert (B2 : forall s, beyond s (do (n, r3) <- expect_name s; do (args, r4) <- parse_ivds_args r3; directive_tail d n args r4)) by (intros; apply beyond_bind; [bb|intros; apply B1]).
    apply ext_bind; [apply ext_punct| |intros; apply B2|intros; apply B2]. intros u s _.
    apply ext_bind; [apply ext_name| |intros; apply B1|intros; apply B1]. intros nm s2 _.
    apply ext_bind; [apply ext_args_def| |intros; apply (beyond_directive_tail d)|intros; apply (beyond_directive_tail d)]. intros args s3 _. apply (ext_directive_tail d).
Qed.

(** ** The tokens before an error can be completed *)
Ltac ll := repeat first [rewrite <- app_assoc | rewrite app_nil_r | rewrite <- app_comm_cons]; reflexivity.
Ltac vh HX m b post := refine (vres_hit _ _ m _ _ _ _ b post eq_refl _ HX _ _); [ll| |].
Ltac vs V m := refine (vres_step _ _ _ _ m _ _ _ _ _ V _); [ll|].
(** [viab] for what can be written in more than one way *)
Definition viab' {A B} (p : list token -> presult A) (tk : B -> list token) (ok : B -> Prop) : Prop := forall ts e r, p ts = PErr e r -> vres tk ok ts e r.
Definition some_type : tref := TBase (tx "a") false.
Definition some_ivd : ivd := {| iv_name := tx "a"; iv_desc := None; iv_type := some_type; iv_default := None; iv_dirs := [] |}.
Definition some_fdef : fdef := {| fd_name := tx "a"; fd_desc := None; fd_args := []; fd_type := some_type; fd_dirs := []; fd_builtin := false |}.
Definition some_evd : evd := {| ev_name := tx "a"; ev_desc := None; ev_dirs := [] |}.
Lemma viab_ivd : viab parse_ivd tk_ivd (ok_true ivd_ok).
Proof.
  intros ts e r H. unfold parse_ivd in H. desc H d r0 E0. subst ts. set (mk n t df ds := {| iv_name := n; iv_desc := d; iv_type := t; iv_default := df; iv_dirs := ds |}).
  be H n r1 E1.
  { pose proof (hit_name _ _ _ H) as HX. vh (HX (tx "a") [P PColon; TkName (tx "a")]) (tk_desc d) (mk (tx "a") some_type None []) [TkName (tx "a"); P PColon; TkName (tx "a")]; reflexivity. }
  apply expect_name_inv in E1 as ->. be H u r2 E2.
  { pose proof (hit_punct _ _ _ _ H) as HX. vh (HX [TkName (tx "a")]) (tk_desc d ++ [TkName n]) (mk n some_type None []) [P PColon; TkName (tx "a")]; [reflexivity|]. unfold tk_ivd, mk. cbn [iv_desc iv_name iv_type]. ll. }
  apply expect_punct_inv in E2 as ->. be H t r3 E3.
  { vs (viab_tref _ _ _ _ H) (tk_desc d ++ [TkName n; P PColon]). intros t _. exists (mk n t None []), []. split; [reflexivity|]. split; [reflexivity|]. unfold tk_ivd, mk. cbn [iv_desc iv_name iv_type]. ll. }
  apply parse_tref_sound in E3. destruct E3 as (-> & _). be H df r4 E4.
  { vs (viab_default _ _ _ H) (tk_desc d ++ TkName n :: P PColon :: tk_tref t). intros df O. exists (mk n t df []), []. split; [reflexivity|]. unfold ok_true, ivd_ok, default_ok in *. cbn [iv_default iv_dirs mk]. rewrite O.
    split; [reflexivity|]. unfold tk_ivd, mk. cbn [iv_desc iv_name iv_type iv_default iv_dirs]. ll. }
  apply parse_default_sound in E4. destruct E4 as (-> & O4). be H ds r5 E5; [|discriminate].
  vs (viab_directives _ _ _ _ H) (tk_desc d ++ TkName n :: P PColon :: tk_tref t ++ tk_default df). intros ds O. exists (mk n t df ds), []. split; [reflexivity|]. unfold ok_true, ivd_ok in *. cbn [iv_default iv_dirs mk]. rewrite O4, O.
  split; [reflexivity|]. unfold tk_ivd, mk. cbn [iv_desc iv_name iv_type iv_default iv_dirs]. ll.
Qed.
Lemma viab_args_def : viab parse_ivds_args tk_args_def (ok_true (forallb ivd_ok)).
Proof.
  intros ts e r H. unfold parse_ivds_args in H. destruct (peek_punct POpenRound ts) eqn:Ep; [|discriminate]. apply peek_punct_inv in Ep. destruct Ep as (ts' & ->).
  be H u r1 E; [discriminate H|]. apply expect_punct_inv in E. injection E as <-.
  apply (viab_many1 _ _ _ _ parse_ivd_sound viab_ivd) in H. vs H [P POpenRound]. intros l (N & O). exists l, []. split; [reflexivity|]. rewrite app_nil_r.
  split; [exact O|]. destruct l; [congruence|reflexivity].
Qed.
Lemma viab_fdef : viab parse_fdef tk_fdef (ok_true fdef_ok).
Proof.
  intros ts e r H. unfold parse_fdef in H. desc H d r0 E0. subst ts. set (mk n args t ds := {| fd_name := n; fd_desc := d; fd_args := args; fd_type := t; fd_dirs := ds; fd_builtin := false |}).
  be H n r1 E1.
  { pose proof (hit_name _ _ _ H) as HX. vh (HX (tx "a") [P PColon; TkName (tx "a")]) (tk_desc d) (mk (tx "a") [] some_type []) [TkName (tx "a"); P PColon; TkName (tx "a")]; reflexivity. }
  apply expect_name_inv in E1 as ->. be H args r2 E2.
  { vs (viab_args_def _ _ _ H) (tk_desc d ++ [TkName n]). intros args O. exists (mk n args some_type []), [P PColon; TkName (tx "a")]. split; [reflexivity|]. unfold ok_true, fdef_ok in *. cbn [fd_builtin fd_args fd_dirs mk]. rewrite O. split; [reflexivity|].
    unfold tk_fdef, mk. cbn [fd_desc fd_name fd_args fd_type fd_dirs]. ll. }
  apply parse_args_def_sound in E2. destruct E2 as (-> & O2). be H u r3 E3.
  { pose proof (hit_punct _ _ _ _ H) as HX. vh (HX [TkName (tx "a")]) (tk_desc d ++ TkName n :: tk_args_def args) (mk n args some_type []) [P PColon; TkName (tx "a")].
    - unfold ok_true, fdef_ok. cbn [fd_builtin fd_args fd_dirs mk]. rewrite O2. reflexivity.
    - unfold tk_fdef, mk. cbn [fd_desc fd_name fd_args fd_type fd_dirs]. ll. }
  apply expect_punct_inv in E3 as ->. be H t r4 E4.
  { vs (viab_tref _ _ _ _ H) (tk_desc d ++ TkName n :: tk_args_def args ++ [P PColon]). intros t _. exists (mk n args t []), []. split; [reflexivity|]. unfold ok_true, fdef_ok. cbn [fd_builtin fd_args fd_dirs mk]. rewrite O2. split; [reflexivity|].
    unfold tk_fdef, mk. cbn [fd_desc fd_name fd_args fd_type fd_dirs]. ll. }
  apply parse_tref_sound in E4. destruct E4 as (-> & _). be H ds r5 E5; [|discriminate].
  vs (viab_directives _ _ _ _ H) (tk_desc d ++ TkName n :: tk_args_def args ++ P PColon :: tk_tref t). intros ds O. exists (mk n args t ds), []. split; [reflexivity|]. unfold ok_true, fdef_ok in *. cbn [fd_builtin fd_args fd_dirs mk]. rewrite O2, O.
  split; [reflexivity|]. unfold tk_fdef, mk. cbn [fd_desc fd_name fd_args fd_type fd_dirs]. ll.
Qed.
Lemma viab_block {A} (item : list token -> presult A) tk ok a : sound item tk ok -> viab item tk (ok_true ok) -> ok a = true -> forallb simple (tk a) = true ->
  viab (fun ts => do (u, r) <- expect_punct POpenBrace ts; many1 item PCloseBrace (S (length r)) r) (braced tk) (fun l => l <> [] /\ forallb ok l = true).
Proof.
  intros S V Oa Sa ts e r H. be H u r1 E1.
  { pose proof (hit_punct _ _ _ _ H) as HX. refine (vres_hit _ _ [] _ _ _ _ [a] (braced tk [a]) _ eq_refl (HX _) _ eq_refl); [|cbn; rewrite Oa; split; [discriminate|reflexivity]].
    unfold braced. cbn. rewrite app_nil_r, forallb_app, Sa. reflexivity. }
  apply expect_punct_inv in E1 as ->. apply (viab_many1 _ _ _ _ S V) in H. vs H [P POpenBrace]. intros l O. exists l, []. split; [reflexivity|]. split; [exact O|]. unfold braced. ll.
Qed.
Lemma viab_fdefs : viab parse_fdefs (fun fs => braced tk_fdef (written_fields fs)) fields_ok.
Proof.
  intros ts e r H. pose proof (viab_block parse_fdef tk_fdef fdef_ok some_fdef parse_fdef_sound viab_fdef eq_refl eq_refl ts e r) as K. cbv beta in K. unfold parse_fdefs in H.
  assert (K' : (do (u, r) <- expect_punct POpenBrace ts; many1 parse_fdef PCloseBrace (S (length r)) r) = PErr e r).
  { be H u r1 E1; [rewrite H; reflexivity|]. rewrite E1. cbn [bind]. be H l r2 E2; [exact H|discriminate]. }
  vs (K K') (@nil token). intros l (N & O). exists (typename_field :: l), []. split; [reflexivity|]. split; [exists l; auto|].
  rewrite <- (written_fields_all l O) at 2. ll.
Qed.
Lemma viab_evd : viab parse_evd tk_evd (ok_true evd_ok).
Proof.
  intros ts e r H. unfold parse_evd in H. desc H d r0 E0. subst ts. set (mk n ds := {| ev_name := n; ev_desc := d; ev_dirs := ds |}). be H n r1 E1.
  { pose proof (hit_name _ _ _ H) as HX. vh (HX (tx "a") []) (tk_desc d) (mk (tx "a") []) [TkName (tx "a")]; reflexivity. }
  apply expect_name_inv in E1 as ->. rewrite reserved_orb in H. destruct (reserved n) eqn:R.
  { injection H as <- <-. assert (HX : hitx (TkName n :: r1) (PEEnum n) r1 [TkName (tx "a")]) by (split; [right; exists (TkName n); auto|cbn [meets]; rewrite R; reflexivity]).
    vh HX (tk_desc d) (mk (tx "a") []) [TkName (tx "a")]; reflexivity. }
  be H ds r2 E2; [|discriminate]. vs (viab_directives _ _ _ _ H) (tk_desc d ++ [TkName n]). intros ds O. exists (mk n ds), []. split; [reflexivity|]. unfold ok_true, evd_ok in *. cbn [ev_name ev_dirs mk]. rewrite R, O.
  split; [reflexivity|]. unfold tk_evd, mk. cbn [ev_desc ev_name ev_dirs]. ll.
Qed.
Lemma viab_evds : viab parse_evds (braced tk_evd) (fun l => l <> [] /\ forallb evd_ok l = true).
Proof. exact (viab_block parse_evd tk_evd evd_ok some_evd parse_evd_sound viab_evd eq_refl eq_refl). Qed.
Lemma viab_input_fields : viab parse_input_fields (braced tk_ivd) (fun l => l <> [] /\ forallb ivd_ok l = true).
Proof. exact (viab_block parse_ivd tk_ivd ivd_ok some_ivd parse_ivd_sound viab_ivd eq_refl eq_refl). Qed.
Section SepViable.
  Context {A : Type} (item : list token -> presult A) (tk : A -> list token) (sep : punct).
  Hypothesis (S : sound item tk (fun _ => true)) (V : viab item tk (fun _ => True)).
  Lemma viab_many_sep fuel : viab (many_sep item sep fuel) (fun l => concat (map (fun b => P sep :: tk b) l)) (fun _ => True).
  Proof using S V.
    induction fuel as [|fuel IH]; intros ts e r H; cbn [many_sep] in H; [injection H as <- <-; left; reflexivity|].
    destruct (next_if_punct sep ts) as [r0|] eqn:E0; [|discriminate]. apply next_if_punct_inv in E0 as ->. be H a r1 E.
    - vs (V _ _ _ H) [P sep]. intros a _. exists [a], []. split; [reflexivity|]. split; [exact I|]. cbn. ll.
    - be H l r2 E2; [|discriminate]. apply S in E. destruct E as (-> & _). vs (IH _ _ _ H) (P sep :: tk a). intros l _. exists (a :: l), []. split; [reflexivity|]. split; [exact I|]. cbn. ll.
  Qed.
  Lemma viab_sep_list : viab' (parse_sep_list item sep) (fun p : bool * list A => tk_sep_list (fst p) sep tk (snd p)) (fun p => snd p <> []).
  Proof using S V.
    intros ts e r H. unfold parse_sep_list in H.
    assert (E : exists lead : bool, ts = (if lead then [P sep] else []) ++ match next_if_punct sep ts with Some r => r | None => ts end).
    { destruct (next_if_punct sep ts) as [r0|] eqn:E0; [apply next_if_punct_inv in E0 as ->; exists true|exists false]; reflexivity. }
    destruct E as (lead & E). revert H E. generalize (match next_if_punct sep ts with Some r => r | None => ts end) as r0. intros r0 H ->. be H a r1 E1.
    - vs (V _ _ _ H) (if lead then [P sep] else []). intros a _. exists (lead, [a]), []. split; [reflexivity|]. split; [discriminate|]. cbn. ll.
    - be H l r2 E2; [|discriminate]. apply S in E1. destruct E1 as (-> & _). vs (viab_many_sep _ _ _ _ H) ((if lead then [P sep] else []) ++ tk a). intros l _.
      exists (lead, a :: l), []. split; [reflexivity|]. split; [discriminate|]. cbn. ll.
  Qed.
End SepViable.
Lemma viab_name : viab expect_name tk_name (fun _ => True).
Proof. intros ts e r H. pose proof (hit_name _ _ _ H) as HX. refine (vres_hit _ _ [] _ _ _ _ (tx "a") [TkName (tx "a")] eq_refl eq_refl (HX _ _) I eq_refl). Qed.
Lemma viab_implements : viab' parse_implements (fun p : bool * list name => tk_implements (fst p) (snd p)) (fun _ => True).
Proof.
  intros ts e r H. unfold parse_implements in H. destruct (peek_name_matches (tx "implements") ts); [|discriminate]. be H u r1 E1.
  { pose proof (hit_name_value _ _ _ _ H) as HX. refine (vres_hit _ _ [] _ _ _ _ (false, [tx "a"]) [TkName (tx "implements"); TkName (tx "a")] eq_refl eq_refl (HX _) I eq_refl). }
  apply expect_name_value_inv in E1 as ->. apply (viab_sep_list _ _ _ expect_name_sound viab_name) in H. vs H [TkName (tx "implements")]. intros [lead l] N. cbn [fst snd] in *.
  exists (lead, l), []. split; [reflexivity|]. split; [exact I|]. cbn [fst snd]. destruct l; [congruence|]. unfold tk_implements. ll.
Qed.
Lemma viab_members : viab' parse_members (fun p : bool * list name => tk_sep_list (fst p) PPipe tk_name (snd p)) (fun p => snd p <> []).
Proof. exact (viab_sep_list _ _ _ expect_name_sound viab_name). Qed.
Lemma viab_location : viab parse_location tk_location (fun _ => True).
Proof.
  intros ts e r H. unfold parse_location in H. be H n r1 E1.
  { pose proof (hit_name _ _ _ H) as HX. refine (vres_hit _ _ [] _ _ _ _ LField [TkName (tx "FIELD")] eq_refl eq_refl (HX _ _) I eq_refl). }
  apply expect_name_inv in E1 as ->. destruct (dloc_of n); [discriminate|]. injection H as <- <-.
  refine (vres_hit _ _ [] _ _ _ _ LField [TkName (tx "FIELD")] eq_refl eq_refl _ I eq_refl). split; [right; exists (TkName n); auto|reflexivity].
Qed.
Lemma viab_locations : viab' parse_locations (fun p : bool * list dloc => tk_sep_list (fst p) PPipe tk_location (snd p)) (fun p => snd p <> []).
Proof. exact (viab_sep_list _ _ _ parse_location_sound viab_location). Qed.
Lemma viab_root : viab parse_root tk_root (fun _ => True).
Proof.
  intros ts e r H. unfold parse_root in H. be H n r1 E1.
  { pose proof (hit_name _ _ _ H) as HX. refine (vres_hit _ _ [] _ _ _ _ (OQuery, tx "a") [TkName (tx "query"); P PColon; TkName (tx "a")] eq_refl eq_refl (HX _ _) I eq_refl). }
  apply expect_name_inv in E1 as ->. destruct (optype_of n) as [ty|] eqn:T.
  2:{ injection H as <- <-. refine (vres_hit _ _ [] _ _ _ _ (OQuery, tx "a") [TkName (tx "query"); P PColon; TkName (tx "a")] eq_refl eq_refl _ I eq_refl). split; [right; exists (TkName n); auto|reflexivity]. }
  apply optype_of_inv in T as ->. be H u r2 E2.
  { pose proof (hit_punct _ _ _ _ H) as HX. refine (vres_hit _ _ [TkName (optype_word ty)] _ _ _ _ (ty, tx "a") [P PColon; TkName (tx "a")] eq_refl eq_refl (HX _) I eq_refl). }
  apply expect_punct_inv in E2 as ->. be H m r3 E3; [|discriminate].
  pose proof (hit_name _ _ _ H) as HX. refine (vres_hit _ _ [TkName (optype_word ty); P PColon] _ _ _ _ (ty, tx "a") [TkName (tx "a")] eq_refl eq_refl (HX _ _) I eq_refl).
Qed.

(** ** Definitions *)
Definition tkp (p : bool * sysdef) : list token := tk_sysdef (fst p) (snd p).
Definition okp (p : bool * sysdef) : Prop := sysdef_ok (snd p).
Definition some_fields : list fdef := [typename_field; some_fdef].
Lemma some_fields_ok : fields_ok some_fields. Proof. exists [some_fdef]. repeat split. discriminate. Qed.
Definition a_block : list token := [P POpenBrace; TkName (tx "a"); P PColon; TkName (tx "a"); P PCloseBrace].
Ltac sy := unfold tkp; cbn [fst snd tk_sysdef tk_tdef tk_esdef]; unfold tk_ddef; cbn [sc_desc sc_name sc_dirs ob_desc ob_name ob_ifaces ob_dirs ob_fields if_desc if_name if_ifaces if_dirs if_fields
  un_desc un_name un_dirs un_members un_fields io_desc io_name io_dirs io_fields en_desc en_name en_dirs en_values es_desc es_dirs es_roots dd_desc dd_name dd_args dd_repeatable dd_locs]; ll.
Lemma viab_scalar d ts e r : scalar_body d ts = PErr e r -> vres tkp okp (tk_desc d ++ TkName (tx "scalar") :: ts) e r.
Proof.
  unfold scalar_body, as_type. intros H. be H x r' E; [|discriminate]. set (mk n ds := (false, SysType (DScalar {| sc_name := n; sc_desc := d; sc_dirs := ds |}))). be H n r2 E2.
  { pose proof (hit_name _ _ _ H) as HX. vh (HX (tx "a") []) (tk_desc d ++ [TkName (tx "scalar")]) (mk (tx "a") []) [TkName (tx "a")]; [reflexivity|]. unfold mk. sy. }
  apply expect_name_inv in E2 as ->. be H ds r3 E3; [|discriminate].
  vs (viab_directives _ _ _ _ H) (tk_desc d ++ [TkName (tx "scalar"); TkName n]). intros ds O. exists (mk n ds), []. split; [reflexivity|]. split; [exact O|]. unfold mk. sy.
Qed.
Section Fielded.
  Variables (d : option text) (kw : text) (mk : bool -> name -> list name -> list directive -> list fdef -> bool * sysdef).
  Hypothesis (T : forall lead n is_ ds fs, tkp (mk lead n is_ ds fs) = tk_desc d ++ TkName kw :: TkName n :: tk_implements lead is_ ++ tk_directives ds ++ braced tk_fdef (written_fields fs)).
  Hypothesis (O : forall lead n is_ ds fs, directives_ok true ds = true -> fields_ok fs -> okp (mk lead n is_ ds fs)).
  Lemma viab_fielded {A} (f : name -> list name -> list directive -> list fdef -> A) ts e r :
    (do (n, r2) <- expect_name ts; do (is_, r3) <- parse_implements r2; do (ds, r4) <- parse_directives true r3; do (fs, r5) <- parse_fdefs r4; POk (f n is_ ds fs) r5) = PErr e r ->
    vres tkp okp (tk_desc d ++ TkName kw :: ts) e r.
  Proof using T O.
    pose proof some_fields_ok as F. intros H. be H n r2 E2.
    { pose proof (hit_name _ _ _ H) as HX. vh (HX (tx "a") a_block) (tk_desc d ++ [TkName kw]) (mk false (tx "a") [] [] some_fields) (TkName (tx "a") :: a_block); [apply O; auto|]. rewrite T. ll. }
    apply expect_name_inv in E2 as ->. be H is_ r3 E3.
    { vs (viab_implements _ _ _ H) (tk_desc d ++ [TkName kw; TkName n]). intros [lead is_] _. exists (mk lead n is_ [] some_fields), a_block. split; [reflexivity|]. split; [apply O; auto|]. rewrite T. ll. }
    apply parse_implements_sound in E3. destruct E3 as (lead & ->). be H ds r4 E4.
    { vs (viab_directives _ _ _ _ H) (tk_desc d ++ TkName kw :: TkName n :: tk_implements lead is_). intros ds Od. exists (mk lead n is_ ds some_fields), a_block. split; [reflexivity|]. split; [apply O; auto|]. rewrite T. ll. }
    apply parse_directives_sound in E4. destruct E4 as (-> & Od). be H fs r5 E5; [|discriminate].
    vs (viab_fdefs _ _ _ H) (tk_desc d ++ TkName kw :: TkName n :: tk_implements lead is_ ++ tk_directives ds). intros fs Of. exists (mk lead n is_ ds fs), []. split; [reflexivity|]. split; [apply O; auto|]. rewrite T. ll.
  Qed.
End Fielded.
Lemma viab_object d ts e r : object_body d ts = PErr e r -> vres tkp okp (tk_desc d ++ TkName (tx "type") :: ts) e r.
Proof.
  unfold object_body, as_type. intros H. be H x r' E; [|discriminate]. revert H.
  apply (viab_fielded d (tx "type") (fun lead n is_ ds fs => (lead, SysType (DObject {| ob_name := n; ob_desc := d; ob_ifaces := is_; ob_dirs := ds; ob_fields := fs; ob_builtin := false |})))).
  - reflexivity.
  - intros. repeat split; auto.
Qed.
Lemma viab_interface d ts e r : interface_body d ts = PErr e r -> vres tkp okp (tk_desc d ++ TkName (tx "interface") :: ts) e r.
Proof.
  unfold interface_body, as_type. intros H. be H x r' E; [|discriminate]. revert H.
  apply (viab_fielded d (tx "interface") (fun lead n is_ ds fs => (lead, SysType (DInterface {| if_name := n; if_desc := d; if_ifaces := is_; if_dirs := ds; if_fields := fs |})))).
  - reflexivity.
  - intros. repeat split; auto.
Qed.
Lemma viab_union d ts e r : union_body d ts = PErr e r -> vres tkp okp (tk_desc d ++ TkName (tx "union") :: ts) e r.
Proof.
  unfold union_body, as_type. intros H. be H x r' E; [|discriminate]. set (mk lead n ds ms := (lead : bool, SysType (DUnion {| un_name := n; un_desc := d; un_dirs := ds; un_members := ms; un_fields := [typename_field] |}))).
  assert (O : forall lead n ds ms, directives_ok true ds = true -> ms <> [] -> okp (mk lead n ds ms)) by (intros; repeat split; auto). assert (NE : [tx "a"] <> []) by discriminate.
  be H n r2 E2.
  { pose proof (hit_name _ _ _ H) as HX. vh (HX (tx "a") [P PEquals; TkName (tx "a")]) (tk_desc d ++ [TkName (tx "union")]) (mk false (tx "a") [] [tx "a"]) [TkName (tx "a"); P PEquals; TkName (tx "a")]; [apply O; auto|]. unfold mk. sy. }
  apply expect_name_inv in E2 as ->. be H ds r3 E3.
  { vs (viab_directives _ _ _ _ H) (tk_desc d ++ [TkName (tx "union"); TkName n]). intros ds Od. exists (mk false n ds [tx "a"]), [P PEquals; TkName (tx "a")]. split; [reflexivity|]. split; [apply O; auto|]. unfold mk. sy. }
  apply parse_directives_sound in E3. destruct E3 as (-> & Od). be H u r4 E4.
  { pose proof (hit_punct _ _ _ _ H) as HX. vh (HX [TkName (tx "a")]) (tk_desc d ++ TkName (tx "union") :: TkName n :: tk_directives ds) (mk false n ds [tx "a"]) [P PEquals; TkName (tx "a")]; [apply O; auto|]. unfold mk. sy. }
  apply expect_punct_inv in E4 as ->. be H ms r5 E5; [|discriminate].
  vs (viab_members _ _ _ H) (tk_desc d ++ TkName (tx "union") :: TkName n :: tk_directives ds ++ [P PEquals]). intros [lead ms] Om. exists (mk lead n ds ms), []. split; [reflexivity|]. split; [apply O; auto|]. unfold mk. sy.
Qed.
Section Listed.
  Context {A B : Type} (d : option text) (kw : text) (p : list token -> presult (list A)) (tk : A -> list token) (ok : A -> bool) (mk : name -> list directive -> list A -> bool * sysdef) (a : A).
  Hypothesis (V : viab p (braced tk) (fun l => l <> [] /\ forallb ok l = true)) (Sa : forallb simple (braced tk [a]) = true) (Oa : ok a = true).
  Hypothesis (T : forall n ds l, tkp (mk n ds l) = tk_desc d ++ TkName kw :: TkName n :: tk_directives ds ++ braced tk l).
  Hypothesis (O : forall n ds l, directives_ok true ds = true -> l <> [] -> forallb ok l = true -> okp (mk n ds l)).
  Lemma viab_listed (f : name -> list directive -> list A -> B) ts e r :
    (do (n, r2) <- expect_name ts; do (ds, r3) <- parse_directives true r2; do (l, r4) <- p r3; POk (f n ds l) r4) = PErr e r -> vres tkp okp (tk_desc d ++ TkName kw :: ts) e r.
  Proof using V Sa Oa T O.
    intros H. assert (NE : [a] <> []) by discriminate. assert (Oa' : forallb ok [a] = true) by (cbn; rewrite Oa; reflexivity). be H n r2 E2.
    { pose proof (hit_name _ _ _ H) as HX. refine (vres_hit _ _ (tk_desc d ++ [TkName kw]) _ _ _ _ (mk (tx "a") [] [a]) (TkName (tx "a") :: braced tk [a]) _ _ (HX _ _) _ _); [exact Sa|ll|apply O; auto|]. rewrite T. ll. }
    apply expect_name_inv in E2 as ->. be H ds r3 E3.
    { vs (viab_directives _ _ _ _ H) (tk_desc d ++ [TkName kw; TkName n]). intros ds Od. exists (mk n ds [a]), (braced tk [a]). split; [exact Sa|]. split; [apply O; auto|]. rewrite T. ll. }
    apply parse_directives_sound in E3. destruct E3 as (-> & Od). be H l r4 E4; [|discriminate].
    vs (V _ _ _ H) (tk_desc d ++ TkName kw :: TkName n :: tk_directives ds). intros l (N & Ol). exists (mk n ds l), []. split; [reflexivity|]. split; [apply O; auto|]. rewrite T. ll.
  Qed.
End Listed.
Lemma viab_input d ts e r : input_body d ts = PErr e r -> vres tkp okp (tk_desc d ++ TkName (tx "input") :: ts) e r.
Proof.
  unfold input_body, as_type. intros H. be H x r' E; [|discriminate]. revert H.
  apply (viab_listed d (tx "input") _ tk_ivd ivd_ok (fun n ds l => (false, SysType (DInput {| io_name := n; io_desc := d; io_dirs := ds; io_fields := l |}))) some_ivd viab_input_fields); try reflexivity.
  intros. repeat split; auto.
Qed.
Lemma viab_enum d ts e r : enum_body d ts = PErr e r -> vres tkp okp (tk_desc d ++ TkName (tx "enum") :: ts) e r.
Proof.
  unfold enum_body, as_type. intros H. be H x r' E; [|discriminate]. revert H.
  apply (viab_listed d (tx "enum") _ tk_evd evd_ok (fun n ds l => (false, SysType (DEnum {| en_name := n; en_desc := d; en_dirs := ds; en_values := l; en_builtin := false |}))) some_evd viab_evds); try reflexivity.
  intros. repeat split; auto.
Qed.
Lemma viab_schema d ts e r : schema_body d ts = PErr e r -> vres tkp okp (tk_desc d ++ TkName (tx "schema") :: ts) e r.
Proof.
  unfold schema_body. intros H. be H x r' E; [|discriminate]. set (mk ds l := (false, SysSchema {| es_desc := d; es_dirs := ds; es_roots := l |})).
  assert (O : forall ds l, directives_ok true ds = true -> l <> [] -> okp (mk ds l)) by (intros; split; auto). assert (NE : [(OQuery, tx "a")] <> []) by discriminate.
  be H ds r2 E2.
  { vs (viab_directives _ _ _ _ H) (tk_desc d ++ [TkName (tx "schema")]). intros ds Od. exists (mk ds [(OQuery, tx "a")]), (braced tk_root [(OQuery, tx "a")]). split; [reflexivity|]. split; [apply O; auto|]. unfold mk. sy. }
  apply parse_directives_sound in E2. destruct E2 as (-> & Od).
  assert (H' : (do (u, r) <- expect_punct POpenBrace r2; many1 parse_root PCloseBrace (S (length r)) r) = PErr e r).
  { be H u r3 E3; [rewrite H; reflexivity|]. rewrite E3. cbn [bind]. be H l r4 E4; [exact H|discriminate]. }
  apply (viab_block parse_root tk_root (fun _ => true) (OQuery, tx "a") parse_root_sound) in H'; try reflexivity.
  2:{ intros ts' e' r'' Hr. vs (viab_root _ _ _ Hr) (@nil token). intros a _. exists a, []. split; [reflexivity|]. split; [reflexivity|]. ll. }
  vs H' (tk_desc d ++ TkName (tx "schema") :: tk_directives ds). intros l (N & _). exists (mk ds l), []. split; [reflexivity|]. split; [apply O; auto|]. unfold mk. sy.
Qed.
Lemma repeatable_eq ts rep r : repeatable_of ts = (rep, r) -> ts = (if rep then [TkName (tx "repeatable")] else []) ++ r.
Proof. unfold repeatable_of. destruct (next_if_name_matches (tx "repeatable") ts) as [r0|] eqn:E; intros [= <- <-]; [apply next_if_name_matches_inv in E|]; auto. Qed.
Lemma viab_directive_body d ts e r : directive_body d ts = PErr e r -> vres tkp okp (tk_desc d ++ TkName (tx "directive") :: ts) e r.
Proof.
  unfold directive_body. intros H. be H x r' E; [|discriminate].
  set (mk lead n args rep ls := (lead : bool, SysDirective {| dd_name := n; dd_desc := d; dd_args := args; dd_repeatable := rep; dd_locs := ls; dd_builtin := false |})).
  assert (O : forall lead n args rep ls, forallb ivd_ok args = true -> ls <> [] -> okp (mk lead n args rep ls)) by (intros; repeat split; auto). assert (NE : [LField] <> []) by discriminate.
  be H u r2 E2.
  { pose proof (hit_punct _ _ _ _ H) as HX. vh (HX [TkName (tx "a"); TkName (tx "on"); TkName (tx "FIELD")]) (tk_desc d ++ [TkName (tx "directive")]) (mk false (tx "a") [] false [LField]) [P PAt; TkName (tx "a"); TkName (tx "on"); TkName (tx "FIELD")];
      [apply O; auto|]. unfold mk. sy. }
  apply expect_punct_inv in E2 as ->. be H n r3 E3.
  { pose proof (hit_name _ _ _ H) as HX. vh (HX (tx "a") [TkName (tx "on"); TkName (tx "FIELD")]) (tk_desc d ++ [TkName (tx "directive"); P PAt]) (mk false (tx "a") [] false [LField]) [TkName (tx "a"); TkName (tx "on"); TkName (tx "FIELD")];
      [apply O; auto|]. unfold mk. sy. }
  apply expect_name_inv in E3 as ->. be H args r4 E4.
  { vs (viab_args_def _ _ _ H) (tk_desc d ++ [TkName (tx "directive"); P PAt; TkName n]). intros args Oa. exists (mk false n args false [LField]), [TkName (tx "on"); TkName (tx "FIELD")]. split; [reflexivity|]. split; [apply O; auto|]. unfold mk. sy. }
  apply parse_args_def_sound in E4. destruct E4 as (-> & Oa). destruct (repeatable_of r4) as [rep r5] eqn:Er. apply repeatable_eq in Er as ->.
  set (m := tk_desc d ++ TkName (tx "directive") :: P PAt :: TkName n :: tk_args_def args ++ if rep then [TkName (tx "repeatable")] else []).
  be H u' r6 E6.
  { pose proof (hit_name_value _ _ _ _ H) as HX. refine (vres_hit _ _ m _ _ _ _ (mk false n args rep [LField]) [TkName (tx "on"); TkName (tx "FIELD")] eq_refl _ (HX _) _ _); unfold m; [ll|apply O; auto|]. unfold mk. sy. }
  apply expect_name_value_inv in E6 as ->. be H ls r7 E7; [|discriminate].
  refine (vres_step _ _ _ _ (m ++ [TkName (tx "on")]) _ _ _ _ _ (viab_locations _ _ _ H) _); unfold m; [ll|]. intros [lead ls] Ol. exists (mk lead n args rep ls), []. split; [reflexivity|]. split; [apply O; auto|]. unfold mk. sy.
Qed.
Lemma body_of_cases n k : body_of n = Some k ->
  In (n, k) [(tx "scalar", scalar_body); (tx "type", object_body); (tx "input", input_body); (tx "enum", enum_body); (tx "union", union_body); (tx "interface", interface_body); (tx "schema", schema_body); (tx "directive", directive_body)].
Proof.
  unfold body_of. repeat (match goal with |- (if teqb n ?w then _ else _) = _ -> _ => destruct (teqb_spec n w) as [->|_] end; [intros [= <-]; cbn [In]; tauto|]). discriminate.
Qed.
Lemma viab_body n k d ts e r : body_of n = Some k -> k d ts = PErr e r -> vres tkp okp (tk_desc d ++ TkName n :: ts) e r.
Proof.
  intros B. apply body_of_cases in B. cbn [In] in B.
  repeat (destruct B as [B|B]; [injection B as <- <-|]); [apply viab_scalar|apply viab_object|apply viab_input|apply viab_enum|apply viab_union|apply viab_interface|apply viab_schema|apply viab_directive_body|contradiction].
Qed.
Lemma viab_sysdef ts e r : try_sysdef ts = Some (PErr e r) -> vres tkp okp ts e r.
Proof.
  intros H. destruct (try_sysdef_cases ts) as [(d & n & r1 & k & -> & B & E)|E]; rewrite E in H; [|discriminate H]. injection H as H. exact (viab_body _ _ _ _ _ _ B H).
Qed.
