(** The errors of the validator, converted, say and mark what the specification asks for. *)
From Coq Require Import String Lia.
From Verif Require Import Base Ast Graph Maps Location CoercionTypes CoercionSpec CoercionErrors DefParser ParserAt ParserAtSpec Doc DocRules DocSpec DocRulesSpec DocVariables DocVariablesSpec DocVariablesProofs FragmentCycles Merging MergingTermination MergingErrorProofs MergingProofs
  Validator CoercionAt ValidatorAt ValidatorAtSpec ValidatorAtProofs.
Local Open Scope string_scope.
Local Open Scope list_scope.

(** * The calls of the visitor are about parts of the document *)
Section Calls.
  Variable S : schema.
  Variable d : ldocument.
  Definition call_ok (e : levent) : Prop :=
    match e with
    | LEPanicked => True
    | LEOp o => In o (lops d)
    | LESelSet sub t => exists r, at_type S d r sub t
    | LEField r al n args ds sub sp fd => exists t, selected S d r t (LField al n args ds sub sp) /\ has_field t (fst n) fd
    | LEConstDirective x loc => directive_in S d None x loc
    | LEVarDirective x loc => exists r, directive_in S d (Some r) x loc
    | LEConstDirectives ds loc => applied S d None ds loc
    | LEVarDirectives ds loc => exists r, applied S d (Some r) ds loc
    | LEFrag f => In f (lfrags d)
    | LEInline c ds sub sp t => exists r, selected S d r t (LInline c ds sub sp)
    | LESpread r n ds sp t => selected S d r t (LSpread n ds sp)
    | LEConstArg a i => given S d None a i
    | LEVarArg r a i => given S d (Some r) a i
    | LEVarDef v => exists o, In o (lops d) /\ In v (lop_vars o)
    | LEVarDefs vs => exists o, In o (lops d) /\ vs = lop_vars o
    end.
  Notation all_ok := (Forall call_ok).
  Lemma all_flat {A} (f : A -> list levent) l : (forall x, In x l -> all_ok (f x)) -> all_ok (flat_map f l).
  Proof. intros H. apply Forall_forall. intros e He. apply in_flat_map in He. destruct He as (x & Hx & He). exact (proj1 (Forall_forall _ _) (H x Hx) e He). Qed.
  Lemma var_args_ok r o args : arguments_in S d (Some r) (Some o) args -> all_ok (var_args_at r args (owner_args o)).
  Proof.
    intros H. apply all_flat. intros a Ha. destruct (get_ivd (owner_args o) (fst (la_name a))) as [i|] eqn:E; constructor; [|constructor].
    exists o, args. auto.
  Qed.
  Lemma const_args_ok o args : arguments_in S d None (Some o) args -> all_ok (const_args_at args (owner_args o)).
  Proof.
    intros H. apply all_flat. intros a Ha. destruct (get_ivd (owner_args o) (fst (la_name a))) as [i|] eqn:E; constructor; [|constructor].
    exists o, args. auto.
  Qed.
  Lemma var_directives_ok r ds loc : applied S d (Some r) ds loc -> all_ok (var_directives_at S r ds loc).
  Proof.
    intros H. destruct ds as [|x ds]; [constructor|]. set (l := x :: ds) in *. change (all_ok (LEVarDirectives l loc :: flat_map (var_directive_at S r loc) l)).
    constructor; [exists r; exact H|]. apply all_flat. intros y Hy. assert (D : directive_in S d (Some r) y loc) by (exists l; auto). constructor; [exists r; exact D|].
    destruct (get_ddef S (fst (ld_name y))) as [dd|] eqn:E; [|constructor]. apply (var_args_ok r (OwnDirective dd)). pose proof (ai_directive S d _ _ _ D) as K. rewrite E in K. exact K.
  Qed.
  Lemma const_directives_ok ds loc : applied S d None ds loc -> all_ok (const_directives_at S ds loc).
  Proof.
    intros H. destruct ds as [|x ds]; [constructor|]. set (l := x :: ds) in *. change (all_ok (LEConstDirectives l loc :: flat_map (const_directive_at S loc) l)).
    constructor; [exact H|]. apply all_flat. intros y Hy. assert (D : directive_in S d None y loc) by (exists l; auto). constructor; [exact D|].
    destruct (get_ddef S (fst (ld_name y))) as [dd|] eqn:E; [|constructor]. apply (const_args_ok (OwnDirective dd)). pose proof (ai_directive S d _ _ _ D) as K. rewrite E in K. exact K.
  Qed.
  Lemma visit_sels_ok r t sels (f : lselection -> list levent) : at_type S d r sels t -> (forall s, In s (fst sels) -> all_ok (f s)) ->
    all_ok (LESelSet sels t :: (fix go (l : list lselection) := match l with [] => [] | x :: l' => f x ++ go l' end) (fst sels)).
  Proof.
    intros H K. constructor; [exists r; exact H|]. clear H. induction (fst sels) as [|s l IH]; [constructor|]. apply Forall_app. split; [apply K; left; reflexivity|].
    apply IH. intros x Hx. apply K. right; exact Hx.
  Qed.
  Lemma visit_selection_ok r : forall s t, selected S d r t s -> all_ok (visit_selection_at S r t s).
  Proof.
    induction s as [al n args ds sub sp IH|n ds sp|c ds sub sp IH] using lselection_induction; intros t H; cbn [visit_selection_at].
    - destruct (get_field (td_fields t) (fst n)) as [fd|] eqn:Ef; [|constructor].
      assert (F : field_on S d r al n args ds sub fd) by (exists t, sp; split; [exact H|exact Ef]).
      constructor; [exists t; split; [exact H|exact Ef]|]. apply Forall_app. split; [apply var_directives_ok; eapply ap_field; exact F|].
      apply Forall_app. split; [apply (var_args_ok r (OwnField fd)); eapply ai_field; exact F|]. destruct sub as [[sub spl]|]; [|constructor]. cbn [fst sub_of] in *.
      destruct sub as [|x l]; [constructor|]. destruct (get_type S (tref_base (fd_type fd))) as [t'|] eqn:Et; [|constructor].
      assert (A : at_type S d r (x :: l, spl) t') by (destruct H as (sels & H1 & H2); exact (at_field S d r sels t al n args ds (x :: l, spl) sp fd t' H1 H2 Ef Et)).
      apply (visit_sels_ok r t' (x :: l, spl) (visit_selection_at S r t') A). intros s Hs. apply IH; [exact Hs|]. exists (x :: l, spl). auto.
    - apply Forall_app. split; [apply var_directives_ok; eapply ap_spread; exact H|]. repeat constructor. exact H.
    - apply Forall_app. split; [apply var_directives_ok; eapply ap_inline; exact H|]. apply Forall_app. split; [|repeat constructor; exists r; exact H].
      destruct (match c with Some c => get_type S (fst c) | None => Some t end) as [t'|] eqn:Et; [|constructor].
      assert (A : at_type S d r sub t').
      { destruct H as (sels & H1 & H2). destruct c as [c|]; [exact (at_inline_on S d r sels t c ds sub sp t' H1 H2 Et)|]. injection Et as <-. exact (at_inline S d r sels t ds sub sp H1 H2). }
      apply (visit_sels_ok r t' sub (visit_selection_at S r t') A). intros s Hs. apply IH; [exact Hs|]. exists sub. auto.
  Qed.
  Lemma visit_set_ok r t sels : at_type S d r sels t -> all_ok (visit_selection_set_at S r t sels).
  Proof. intros H. constructor; [exists r; exact H|]. apply all_flat. intros s Hs. apply visit_selection_ok. exists sels. auto. Qed.
  Theorem visit_ok : all_ok (visit_at S d).
  Proof.
    unfold visit_at. apply Forall_app. split; apply Forall_concat, Forall_forall; intros evs He; unfold mapi in He; apply mapi_from_In in He.
    - destruct He as (i & o & Ho & ->). cbn [Nat.add] in *. pose proof (nth_error_In _ _ Ho) as Hin. constructor; [exact Hin|]. apply Forall_app. split; [|apply Forall_app; split].
      + apply var_directives_ok. pose proof (ap_operation S d i o Ho) as K. destruct (lop_type o); exact K.
      + assert (V : forall v, In v (lop_vars o) -> all_ok (const_directives_at S (dirs_of (lvd_dirs v)) LVariableDefinition ++ [LEVarDef v])).
        { intros v Hv. apply Forall_app. split; [apply const_directives_ok; exact (ap_variable S d o v Hin Hv)|]. repeat constructor. exists o. auto. }
        unfold visit_variable_definitions_at. destruct (lop_vars o) as [|v vs] eqn:E; [constructor|]. constructor; [exists o; rewrite E; auto|]. apply all_flat. exact V.
      + destruct (op_root_name S (lop_type o)) as [n|] eqn:En; [|constructor]. destruct (get_type S n) as [t|] eqn:Et; [|repeat constructor]. apply visit_set_ok. apply at_operation; [exact Ho|].
        unfold root_type. destruct (lop_type o); cbn in En; [injection En as <-; exact Et|exists n; auto|exists n; auto].
    - destruct He as (i & f & Hf & ->). cbn [Nat.add] in *. apply Forall_app. split; [|apply Forall_app; split].
      + destruct (get_type S (fst (lf_cond f))) as [t|] eqn:Et; [|constructor]. apply visit_set_ok. apply at_fragment; assumption.
      + apply var_directives_ok. apply ap_fragment. exact Hf.
      + repeat constructor. exact (nth_error_In _ _ Hf).
  Qed.
  Lemma call e : In e (visit_at S d) -> call_ok e.
  Proof. exact (proj1 (Forall_forall _ _) visit_ok e). Qed.
End Calls.

(** * Values *)
Definition is_token (v : value) : Prop := match v with VList _ | VObj _ => False | _ => True end.
Definition tokens_only (ns : list node) : Prop := forall x sp, In (NValue (LVLeaf x sp)) ns -> is_token x.
Lemma duplicates_with {A} (key : A -> lname) l k xs : In (k, xs) (duplicates (fun x => fst (key x)) l) -> xs = with_name key k l /\ 2 <= length xs.
Proof. intros H. apply (duplicates_In (fun x => fst (key x))) in H. exact H. Qed.

Section Values.
  Variable S : schema.
  Variable hook : name -> value -> option text.
  Variable str_enum one_of : bool.
  Notation co := (coerce hook str_enum one_of S).
  Notation col := (coerce_at hook str_enum one_of S).
  Lemma token_errors x sp : is_token x -> forall t p one c, In c (co x t p one) -> told_value (LVLeaf x sp) p c (coercion_error (at_token sp c)).
  Proof.
    intros Hx. assert (N : forall t p, told_value (LVLeaf x sp) p (ENoImplicit x (tref_display t) p) (coercion_error (at_token sp (ENoImplicit x (tref_display t) p)))).
    { intros t p. exact (tv_implicit (LVLeaf x sp) p (tref_display t)). }
    assert (M : forall ed n p c, x = VEnum n \/ x = VStr n -> In c (coerce_enum_name ed x n p) -> told_value (LVLeaf x sp) p c (coercion_error (at_token sp c))).
    { intros ed n p c E H. unfold coerce_enum_name in H. destruct (existsb _ (en_values ed)); [destruct H|]. destruct H as [<-|[]]. exact (tv_member (LVLeaf x sp) p n (en_name ed) E). }
    induction t as [n r|inner IH r]; intros p one c H.
    - destruct x as [n0|z|f|s|b|  |m|vs|es]; try contradiction; cbn [coerce] in H; try (destruct H; fail).
      all: try (destruct (tref_required _); [destruct H as [<-|[]]; exact (tv_null (LVLeaf VNull sp) p _ eq_refl)|destruct H]; fail).
      all: destruct (get_type S n) as [[bu|sd|od|io|ed|ud|idf]|].
      all: try (destruct H as [<-|[]]; first [exact (N _ _)|exact (tv_unresolved (LVLeaf _ sp) p n)]; fail).
      all: try (unfold coerce_custom in H; destruct (hook _ _) as [msg|]; [destruct H as [<-|[]]; exact (tv_scalar (LVLeaf _ sp) p (sc_name sd) msg)|destruct H]; fail).
      all: try (unfold coerce_builtin in H; destruct bu; first [destruct H as [<-|[]]; exact (N _ _)|destruct H; fail]; fail).
      all: unfold coerce_enum in H; try (destruct H as [<-|[]]; exact (N _ _)).
      + destruct str_enum; [|destruct H as [<-|[]]; exact (N _ _)]. exact (M ed s p c (or_intror eq_refl) H).
      + exact (M ed m p c (or_introl eq_refl) H).
    - destruct x as [n0|z|f|s|b|  |m|vs|es]; try contradiction; cbn [coerce] in H; try (destruct H; fail).
      all: try (destruct (tref_required _); [destruct H as [<-|[]]; exact (tv_null (LVLeaf VNull sp) p _ eq_refl)|destruct H]; fail).
      all: destruct one; [exact (IH p true c H)|destruct H as [<-|[]]; exact (N _ _)].
  Qed.
  Lemma value_errors_told v : tokens_only (value_nodes v) -> forall t p one e, In e (col v t p one) ->
    exists v' t' one' p', inside S v t one p v' t' one' p' /\ In (plain_cerr e) (co (plain_value v') t' p' one') /\ told_value v' p' (plain_cerr e) (coercion_error e).
  Proof.
    assert (H0 : forall v t p one e, In e (col v t p one) -> told_value v p (plain_cerr e) (coercion_error e) ->
      exists v' t' one' p', inside S v t one p v' t' one' p' /\ In (plain_cerr e) (co (plain_value v') t' p' one') /\ told_value v' p' (plain_cerr e) (coercion_error e)).
    { intros w t p one e H K. exists w, t, one, p. split; [apply in_here|]. split; [|exact K]. rewrite <- coerce_plain. apply in_map. exact H. }
    induction v as [v sp|vs sp IH|es sp IH] using lvalue_induction; intros W.
    - intros t p one e H. apply (H0 _ _ _ _ _ H). rewrite coerce_leaf in H. apply in_map_iff in H. destruct H as (c & <- & H). rewrite at_token_plain.
      apply token_errors with (t := t) (one := one); [|exact H]. apply (W v sp). left; reflexivity.
    - induction t as [n r|inner IHt r]; intros p one e H.
      + apply (H0 _ _ _ _ _ H). cbn [coerce_at] in H. destruct (get_type S n) as [[bu|sd|od|io|ed|ud|idf]|].
        all: try (destruct H as [<-|[]]; first [exact (tv_implicit (LVList vs sp) p _)|exact (tv_unresolved (LVList vs sp) p n)]; fail).
        unfold coerce_custom_at in H. destruct (hook _ _) as [msg|]; [|destruct H]. destruct H as [<-|[]]. exact (tv_scalar (LVList vs sp) p (sc_name sd) msg).
      + cbn [coerce_at] in H. apply in_concat in H. destruct H as (l & Hl & H). unfold mapi in Hl. apply mapi_from_In in Hl. destruct Hl as (i & x & Hi & ->). cbn [Nat.add] in H.
        destruct (IH x (nth_error_In _ _ Hi)) with (t := inner) (p := ppush p (PIndex i)) (one := false) (e := e) as (v' & t' & o' & p' & I & K); [|exact H|].
        * intros y spy Hy. apply (W y spy). right. apply in_flat_map. exists x. split; [exact (nth_error_In _ _ Hi)|exact Hy].
        * exists v', t', o', p'. split; [|exact K]. exact (in_item S vs sp inner r one p i x v' t' o' p' Hi I).
    - induction t as [n r|inner IHt r]; intros p one e H.
      + pose proof H as HH. cbn [coerce_at] in H. destruct (get_type S n) as [[bu|sd|od|io|ed|ud|idf]|] eqn:Et.
        all: try (apply (H0 _ _ _ _ _ HH); destruct H as [<-|[]]; first [exact (tv_implicit (LVObj es sp) p _)|exact (tv_unresolved (LVObj es sp) p n)]; fail).
        { apply (H0 _ _ _ _ _ HH). unfold coerce_custom_at in H. destruct (hook _ _) as [msg|]; [|destruct H]. destruct H as [<-|[]]. exact (tv_scalar (LVObj es sp) p (sc_name sd) msg). }
        unfold coerce_object_at in H. apply in_app_or in H. destruct H as [H|H]; [|apply in_app_or in H; destruct H as [H|H]; [|apply in_app_or in H; destruct H as [H|H]; [|apply in_app_or in H; destruct H as [H|H]]]].
        * apply (H0 _ _ _ _ _ HH). apply in_map_iff in H. destruct H as ((f & xs) & <- & H). apply (duplicates_with fst) in H. destruct H as (-> & H). cbn [plain_cerr coercion_error fst snd].
          rewrite map_length. pose proof (tv_fields (LVObj es sp) p es sp f eq_refl H) as K. unfold at_places in K. rewrite map_map in K. cbn [coercion_message]. rewrite map_map. exact K.
        * apply (H0 _ _ _ _ _ HH). apply in_map_iff in H. destruct H as ((f & x) & <- & H). apply filter_In in H. destruct H as (H & _). exact (tv_field (LVObj es sp) p es sp f x (io_name io) eq_refl H).
        * apply in_flat_map in H. destruct H as (i & Hi & H). clear HH.
          assert (K : exists k x, In (k, x) es /\ find (fun e => teqb (iv_name i) (fst (fst e))) es = Some (k, x) /\ In e (col x (iv_type i) (ppush p (PKey (iv_name i))) true)).
          { clear - H. induction es as [|[k x] es IHe]; cbn [map assoc fst snd find] in *; [destruct H|]. destruct (teqb (iv_name i) (fst k)).
            - exists k, x. split; [left; reflexivity|]. auto.
            - destruct (IHe H) as (k' & x' & A & B). exists k', x'. split; [right; exact A|exact B]. }
          destruct K as (k & x & Hin & Hf & K). destruct (IH k x Hin) with (t := iv_type i) (p := ppush p (PKey (iv_name i))) (one := true) (e := e) as (v' & t' & o' & p' & I & K'); [|exact K|].
          -- intros y spy Hy. apply (W y spy). right. apply in_flat_map. exists (k, x). split; [exact Hin|right; exact Hy].
          -- exists v', t', o', p'. split; [|exact K']. exact (in_entry S es sp n r io i k x one p v' t' o' p' Et Hi Hf I).
        * apply (H0 _ _ _ _ _ HH). unfold one_of_errors_at in H. destruct (one_of && has_directive (tx "oneOf") (io_dirs io)); [|destruct H]. apply in_app_or in H. destruct H as [H|H].
          -- destruct (Nat.eqb _ 0); [destruct H|destruct H as [<-|[]]]. exact (tv_nulls (LVObj es sp) p es sp (io_name io) _ eq_refl eq_refl).
          -- destruct (Nat.eqb _ 1); [destruct H|destruct H as [<-|[]]]. exact (tv_single (LVObj es sp) p es sp (io_name io) _ eq_refl eq_refl).
        * apply (H0 _ _ _ _ _ HH). destruct (filter _ (io_fields io)) as [|m ms]; [destruct H|]. destruct H as [<-|[]]. exact (tv_required (LVObj es sp) p (map iv_name (m :: ms)) (io_name io)).
      + cbn [coerce_at] in H. destruct one.
        * destruct (IHt p true e H) as (v' & t' & o' & p' & I & K). exists v', t', o', p'. split; [|exact K]. apply in_single; [discriminate|exact I].
        * apply (H0 (LVObj es sp) (TList inner r) p false e); [exact H|]. destruct H as [<-|[]]. exact (tv_implicit (LVObj es sp) p _).
  Qed.
  (** the value itself is wrong for the expected type *)
  Lemma inside_trans v t one p v1 t1 one1 p1 : inside S v t one p v1 t1 one1 p1 -> forall v2 t2 one2 p2, inside S v1 t1 one1 p1 v2 t2 one2 p2 -> inside S v t one p v2 t2 one2 p2.
  Proof.
    induction 1 as [v t one p|v inner req p v' t' one' p' Hv _ IH|vs sp inner req one p i v v' t' one' p' Hn _ IH|es sp n req io i k v one p v' t' one' p' Ht Hi Hf _ IH]; intros v2 t2 one2 p2 H2.
    - exact H2.
    - apply in_single; [exact Hv|exact (IH _ _ _ _ H2)].
    - exact (in_item S vs sp inner req one p i v _ _ _ _ Hn (IH _ _ _ _ H2)).
    - exact (in_entry S es sp n req io i k v one p _ _ _ _ Ht Hi Hf (IH _ _ _ _ H2)).
  Qed.
  Lemma visits_nil v p : forall a t q a' t' w, visits S a t (plain_value v) q a' t' w -> q = [] -> w = plain_value v /\ inside S v t a p v t' a' p.
  Proof.
    assert (G : forall a t x q a' t' w, visits S a t x q a' t' w -> x = plain_value v -> q = [] -> w = x /\ inside S v t a p v t' a' p).
    { induction 1 as [a t x|inner r x q a' t' w Hx _ IH|a inner r vs i x q a' t' w Hn _ IH|a n r dd es f x q a' t' w Hg Hf Ha _ IH]; intros E Eq; try discriminate.
      - split; [reflexivity|apply in_here].
      - destruct (IH E Eq) as (-> & K). split; [reflexivity|]. apply in_single; [|exact K]. intros vs sp ->. cbn in E. subst x. destruct Hx. }
    intros a t q a' t' w H. exact (G a t _ q a' t' w H eq_refl).
  Qed.
  Lemma told_offence v t one p e er : told_value v p e er -> In e (co (plain_value v) t p one) ->
    exists t' one', inside S v t one p v t' one' p /\ offence hook str_enum one_of S one' t' (plain_value v) p e.
  Proof.
    intros T H. apply (coerce_exact hook str_enum one_of S) in H. destruct H as (q & a & t' & w & Hv & Ho).
    assert (Q : q = []).
    { assert (L : length (cerr_path e) = length p \/ exists k ty pp, e = ENoInputField k ty pp /\ length pp = length p + 1).
      { destruct T; try (left; reflexivity). right. eexists _, _, _. split; [reflexivity|]. unfold ppush. rewrite app_length. reflexivity. }
      assert (Z : length q = 0).
      { assert (N : length (p ++ q) = length p + length q) by apply app_length. clear Hv T. revert Ho N. generalize (p ++ q). intros pq Ho N. destruct Ho; destruct L as [L|(k' & ty' & pp & E & L)]; try discriminate; cbn [cerr_path] in L; try (injection E as _ _ E; subst pp); rewrite ?app_length in L; cbn [length] in L; lia. }
      destruct q; [reflexivity|discriminate]. }
    destruct (visits_nil v p _ _ _ _ _ _ Hv Q) as (-> & K). subst q. rewrite app_nil_r in Ho. exists t', a. auto.
  Qed.
End Values.

(** * The rules *)
Section RulesTold.
  Variable S : schema.
  Variable d : ldocument.
  Variable hook : name -> value -> option text.
  Variable str_enum one_of : bool.
  Notation tells := (fun e => told S d hook str_enum one_of (plain_error e) (validation_error d e)).
  Notation all_told := (Forall tells).
  Notation evs := (visit_at S d).
  Lemma each_told (f : levent -> list ldoc_error) : (forall ev, In ev evs -> call_ok S d ev -> all_told (f ev)) -> all_told (flat_map f evs).
  Proof. intros H. apply Forall_forall. intros e He. apply in_flat_map in He. destruct He as (ev & Hv & He). exact (proj1 (Forall_forall _ _) (H ev Hv (call S d ev Hv)) e He). Qed.
  Lemma flat_told {A} (f : A -> list ldoc_error) l : (forall x, In x l -> all_told (f x)) -> all_told (flat_map f l).
  Proof. intros H. apply Forall_forall. intros e He. apply in_flat_map in He. destruct He as (x & Hx & He). exact (proj1 (Forall_forall _ _) (H x Hx) e He). Qed.
  Lemma one_told e : tells e -> all_told [e].
  Proof. repeat constructor. assumption. Qed.

  Lemma subscription_told : all_told (subscription_errors_at d evs).
  Proof. apply each_told. intros ev _ H. destruct ev; try constructor. destruct (subscription_root_invalid _ _) eqn:E; constructor; [|constructor]. apply to_subscription; [exact H|].
    unfold subscription_root_invalid in E. destruct o as [[] ? ? ? ? ? ?|]; cbn [plain_operation op_type lop_type] in E |- *; try discriminate; reflexivity. Qed.
  Lemma field_selection_told : all_told (field_selection_errors_at evs).
  Proof.
    apply each_told. intros ev _ H. destruct ev as [| |sels t| | | | | | | | | | | |]; try constructor. destruct H as (r & H). destruct (td_composite t); [|constructor]. apply flat_told. intros s Hs.
    destruct s as [al n args ds sub sp| |]; try constructor. destruct (get_field (td_fields t) (fst n)) eqn:E; [constructor|]. apply one_told. cbn [plain_error validation_error].
    apply (to_field S d hook str_enum one_of r t al n args ds sub sp); [exists sels; auto|exact E].
  Qed.
  Lemma operation_type_told : all_told (operation_type_errors_at S evs).
  Proof.
    apply each_told. intros ev _ H. destruct ev as [|o| | | | | | | | | | | | |]; try constructor. destruct o as [ty sp n vs ds sub sp'|sub]; cbn [lop_type]; [|constructor].
    destruct ty; [constructor| |]; [destruct (s_mutation S) eqn:E|destruct (s_subscription S) eqn:E]; try (constructor; fail); apply one_told; apply to_type; assumption.
  Qed.
  Lemma leaf_selection_told : all_told (leaf_selection_errors_at S evs).
  Proof.
    apply each_told. intros ev _ H. destruct ev as [| | |r al n args ds sub sp fd| | | | | | | | | | |]; try constructor. destruct H as (t & H & F).
    assert (O : field_on S d r al n args ds sub fd) by (exists t, sp; auto). destruct (leaf_type S (fd_type fd)) eqn:L.
    - destruct sub as [s|]; [|constructor]. destruct (fst s) as [|x l] eqn:E; [constructor|]. apply one_told. apply (to_leaf S d hook str_enum one_of r al n args ds s fd O); [rewrite E; discriminate|]. unfold leaf_type in L. destruct (get_type S (tref_base (fd_type fd))) as [u|]; [|discriminate]. exists u. split; [reflexivity|]. destruct u; try discriminate; exact I.
    - destruct (sub_of sub) as [|x l] eqn:E; [|constructor]. apply one_told. apply (to_no_leaf S d hook str_enum one_of r al n args ds sub fd O E). intros u Eu K. unfold leaf_type in L. rewrite Eu in L. destruct u; try discriminate; exact K.
  Qed.
  Lemma unknown_args_told r o args : arguments_in S d r (Some o) args -> all_told (unknown_args_at o args (owner_args o)).
  Proof.
    intros H. apply flat_told. intros a Ha. destruct (find _ (owner_args o)) eqn:E; [constructor|]. apply one_told.
    exact (to_argument S d hook str_enum one_of r o args a H Ha E).
  Qed.
  Lemma unknown_directive_told r x loc : directive_in S d r x loc -> all_told (unknown_args_directive_at S x).
  Proof.
    intros H. unfold unknown_args_directive_at. destruct (get_ddef S (fst (ld_name x))) as [dd|] eqn:E; [|constructor]. apply (unknown_args_told r (OwnDirective dd)).
    pose proof (ai_directive S d r x loc H) as K. rewrite E in K. exact K.
  Qed.
  Lemma argument_name_told : all_told (argument_name_errors_at S evs).
  Proof.
    apply each_told. intros ev _ H. destruct ev as [| | |r al n args ds sub sp fd|x loc|x loc| | | | | | | | |]; try constructor.
    - destruct H as (t & H & F). apply (unknown_args_told (Some r) (OwnField fd)). apply (ai_field S d r al n args ds sub fd). exists t, sp; auto.
    - exact (unknown_directive_told _ _ _ H).
    - destruct H as (r & H). exact (unknown_directive_told _ _ _ H).
  Qed.
  Lemma repeated_args_told r o args : arguments_in S d r o args -> all_told (repeated_args_at args).
  Proof.
    intros H. apply Forall_forall. intros e He. apply in_map_iff in He. destruct He as ((n & xs) & <- & He). apply (duplicates_with la_name) in He. destruct He as (-> & He).
    pose proof (to_arguments S d hook str_enum one_of r o args n H He) as K. unfold at_places in K. rewrite map_map in K. exact K.
  Qed.
  Lemma argument_uniqueness_told : all_told (argument_uniqueness_errors_at evs).
  Proof.
    apply each_told. intros ev _ H. destruct ev as [| | |r al n args ds sub sp fd|x loc|x loc| | | | | | | | |]; try constructor.
    - destruct H as (t & H & F). apply (repeated_args_told (Some r) (Some (OwnField fd))). apply (ai_field S d r al n args ds sub fd). exists t, sp; auto.
    - exact (repeated_args_told _ _ _ (ai_directive S d _ _ _ H)).
    - destruct H as (r & H). exact (repeated_args_told _ _ _ (ai_directive S d _ _ _ H)).
  Qed.
  Lemma missing_directive_told r x loc : directive_in S d r x loc -> all_told (missing_args_directive_at S x).
  Proof.
    intros H. unfold missing_args_directive_at. destruct (get_ddef S (fst (ld_name x))) as [dd|] eqn:E; [|constructor]. destruct (missing_of _ (dd_args dd)) as [|m ms] eqn:M; [constructor|].
    apply one_told. apply (to_missing_on S d hook str_enum one_of r x loc dd (m :: ms) H E); [symmetry; exact M|discriminate].
  Qed.
  Lemma required_argument_told : all_told (required_argument_errors_at S evs).
  Proof.
    apply each_told. intros ev _ H. destruct ev as [| | |r al n args ds sub sp fd|x loc|x loc| | | | | | | | |]; try constructor.
    - destruct H as (t & H & F). destruct (missing_of _ (fd_args fd)) as [|m ms] eqn:M; [constructor|]. apply one_told.
      apply (to_missing S d hook str_enum one_of r al n args ds sub fd (m :: ms)); [exists t, sp; auto|symmetry; exact M|discriminate].
    - exact (missing_directive_told _ _ _ H).
    - destruct H as (r & H). exact (missing_directive_told _ _ _ H).
  Qed.
  Lemma fragment_type_told : all_told (fragment_type_errors_at S evs).
  Proof.
    apply each_told. intros ev _ H. destruct ev as [| | | | | | | |f|c ds sub sp t| | | | |]; try constructor.
    - destruct (get_type S (fst (lf_cond f))) eqn:E; [constructor|]. apply one_told. apply to_target_missing; assumption.
    - destruct c as [c|]; [|constructor]. destruct H as (r & H). destruct (get_type S (fst c)) eqn:E; [constructor|]. apply one_told. exact (to_inline_missing S d hook str_enum one_of r t c ds sub sp H E).
  Qed.
  Lemma fragment_composite_told : all_told (fragment_composite_errors_at S evs).
  Proof.
    apply each_told. intros ev _ H. destruct ev as [| | | | | | | |f|c ds sub sp t| | | | |]; try constructor.
    - destruct (get_type S (fst (lf_cond f))) as [t|] eqn:E; [|constructor]. destruct (td_composite t) eqn:C; [constructor|]. apply one_told. exact (to_target_kind S d hook str_enum one_of f t H E C).
    - destruct c as [c|]; [|constructor]. destruct H as (r & H). destruct (get_type S (fst c)) as [t'|] eqn:E; [|constructor]. destruct (td_composite t') eqn:C; [constructor|]. apply one_told.
      exact (to_inline_kind S d hook str_enum one_of r t c ds sub sp t' H E C).
  Qed.
  Lemma spread_target_told : all_told (spread_target_errors_at d evs).
  Proof.
    apply each_told. intros ev _ H. destruct ev as [| | | | | | | | | |r n ds sp t| | | |]; try constructor. destruct (existsb _ (lfrags d)) eqn:E; [constructor|]. apply one_told.
    apply (to_undefined S d hook str_enum one_of r t n ds sp H). intros f Hf Hn. assert (X : existsb (fun f => teqb (fst n) (fst (lf_name f))) (lfrags d) = true).
    { apply existsb_exists. exists f. split; [exact Hf|]. apply teqb_eq. auto. }
    congruence.
  Qed.
  Lemma spread_possible_told : all_told (spread_possible_errors_at S d evs).
  Proof.
    apply each_told. intros ev _ H. destruct ev as [| | | | | | | | |c ds sub sp t|r n ds sp t| | | |]; try constructor.
    - destruct c as [c|]; [|constructor]. destruct H as (r & H). destruct (get_type S (fst c)) as [t'|] eqn:E; [|constructor]. destruct (spread_is_not_possible S t t'); [|constructor]. apply one_told.
      exact (to_inline_impossible S d hook str_enum one_of r t c ds sub sp H).
    - destruct (cached_fragment _ (fst n)) as [f|]; [|constructor]. destruct (get_type S (fr_cond f)) as [t'|]; [|constructor]. destruct (spread_is_not_possible S t t'); [|constructor]. apply one_told.
      exact (to_impossible S d hook str_enum one_of r t n ds sp H).
  Qed.
  Lemma undefined_told r x loc : directive_in S d r x loc -> all_told (undefined_directive_at S x).
  Proof. intros H. unfold undefined_directive_at. destruct (get_ddef S (fst (ld_name x))) eqn:E; [constructor|]. apply one_told. exact (to_directive S d hook str_enum one_of r x loc H E). Qed.
  Lemma directive_defined_told : all_told (directive_defined_errors_at S evs).
  Proof.
    apply each_told. intros ev _ H. destruct ev as [| | | |x loc|x loc| | | | | | | | |]; try constructor; [exact (undefined_told _ _ _ H)|destruct H as (r & H); exact (undefined_told _ _ _ H)].
  Qed.
  Lemma misplaced_told r x loc : directive_in S d r x loc -> all_told (misplaced_directive_at S x loc).
  Proof.
    intros H. unfold misplaced_directive_at. destruct (get_ddef S (fst (ld_name x))) as [dd|] eqn:E; [|constructor]. destruct (forallb _ (dd_locs dd)) eqn:F; [|constructor]. apply one_told.
    apply (to_location S d hook str_enum one_of r x loc dd H E). intros K. pose proof (proj1 (forallb_forall _ _) F loc K) as X. cbv beta in X. destruct loc; discriminate X.
  Qed.
  Lemma directive_location_told : all_told (directive_location_errors_at S evs).
  Proof.
    apply each_told. intros ev _ H. destruct ev as [| | | |x loc|x loc| | | | | | | | |]; try constructor; [exact (misplaced_told _ _ _ H)|destruct H as (r & H); exact (misplaced_told _ _ _ H)].
  Qed.
  Lemma ddef_name n dd : get_ddef S n = Some dd -> dd_name dd = n.
  Proof. unfold get_ddef. intros H. apply find_some in H. apply teqb_eq. exact (proj2 H). Qed.
  Lemma repeated_told r ds loc : applied S d r ds loc -> all_told (repeated_directives_at S ds).
  Proof.
    intros H. apply flat_told. intros (n & xs) He. cbn [fst snd]. destruct (get_ddef S n) as [dd|] eqn:E; [|constructor]. destruct (dd_repeatable dd) eqn:R; [constructor|]. apply one_told.
    apply (duplicates_with ld_name) in He. destruct He as (-> & He). pose proof (to_directives S d hook str_enum one_of r ds loc n dd H E R He) as K. unfold at_places in K. rewrite map_map in K.
    cbn [plain_error validation_error]. rewrite (ddef_name _ _ E). exact K.
  Qed.
  Lemma directive_uniqueness_told : all_told (directive_uniqueness_errors_at S evs).
  Proof.
    apply each_told. intros ev _ H. destruct ev as [| | | | | |ds loc|ds loc| | | | | | |]; try constructor; [exact (repeated_told _ _ _ H)|destruct H as (r & H); exact (repeated_told _ _ _ H)].
  Qed.
  Lemma variable_uniqueness_told : all_told (variable_uniqueness_errors_at evs).
  Proof.
    apply each_told. intros ev _ H. destruct ev as [| | | | | | | | | | | | | |vs]; try constructor. destruct H as (o & Ho & ->). apply Forall_forall. intros e He.
    apply in_map_iff in He. destruct He as ((n & xs) & <- & He). apply (duplicates_with lvd_name) in He. destruct He as (-> & He).
    pose proof (to_variables S d hook str_enum one_of o n Ho He) as K. unfold at_places in K. rewrite map_map in K. exact K.
  Qed.
  Lemma variable_input_told : all_told (variable_input_errors_at S evs).
  Proof.
    apply each_told. intros ev _ H. destruct ev as [| | | | | | | | | | | | |v|]; try constructor. destruct H as (o & Ho & Hv).
    destruct (match get_type S _ with Some t => td_is_input t | None => false end) eqn:E; [constructor|]. apply one_told. apply (to_variable_type S d hook str_enum one_of o v Ho Hv).
    destruct (get_type S _); [exact E|exact I].
  Qed.

  (** ** Names of operations and fragments *)
  Definition quiet (ev : levent) : Prop := match ev with LEOp _ | LEFrag _ => False | _ => True end.
  Lemma quiet_flat {A} (f : A -> list levent) l : (forall x, In x l -> Forall quiet (f x)) -> Forall quiet (flat_map f l).
  Proof. intros H. apply Forall_forall. intros e He. apply in_flat_map in He. destruct He as (x & Hx & He). exact (proj1 (Forall_forall _ _) (H x Hx) e He). Qed.
  Lemma quiet_args r args defs : Forall quiet (var_args_at r args defs).
  Proof. apply quiet_flat. intros a _. destruct (get_ivd defs (fst (la_name a))); repeat constructor. Qed.
  Lemma quiet_const_args args defs : Forall quiet (const_args_at args defs).
  Proof. apply quiet_flat. intros a _. destruct (get_ivd defs (fst (la_name a))); repeat constructor. Qed.
  Lemma quiet_directives r ds loc : Forall quiet (var_directives_at S r ds loc).
  Proof.
    unfold var_directives_at. destruct ds as [|x l]; [constructor|]. constructor; [exact I|]. apply quiet_flat. intros y _. constructor; [exact I|].
    destruct (get_ddef S (fst (ld_name y))); [apply quiet_args|constructor].
  Qed.
  Lemma quiet_const_directives ds loc : Forall quiet (const_directives_at S ds loc).
  Proof.
    unfold const_directives_at. destruct ds as [|x l]; [constructor|]. constructor; [exact I|]. apply quiet_flat. intros y _. constructor; [exact I|].
    destruct (get_ddef S (fst (ld_name y))); [apply quiet_const_args|constructor].
  Qed.
  Lemma quiet_sels sels (f : lselection -> list levent) : (forall s, In s sels -> Forall quiet (f s)) ->
    Forall quiet ((fix go (l : list lselection) := match l with [] => [] | x :: l' => f x ++ go l' end) sels).
  Proof. intros K. induction sels as [|s l IH]; [constructor|]. apply Forall_app. split; [apply K; left; reflexivity|]. apply IH. intros x Hx. apply K. right; exact Hx. Qed.
  Lemma quiet_selection r : forall s t, Forall quiet (visit_selection_at S r t s).
  Proof.
    induction s as [al n args ds sub sp IH|n ds sp|c ds sub sp IH] using lselection_induction; intros t; cbn [visit_selection_at].
    - destruct (get_field (td_fields t) (fst n)) as [fd|]; [|constructor]. constructor; [exact I|]. apply Forall_app. split; [apply quiet_directives|]. apply Forall_app. split; [apply quiet_args|].
      destruct sub as [[sub spl]|]; [|constructor]. cbn [fst sub_of] in *. destruct sub as [|x l]; [constructor|]. destruct (get_type S (tref_base (fd_type fd))) as [t'|]; [|constructor].
      constructor; [exact I|]. apply (quiet_sels (x :: l) (visit_selection_at S r t')). intros s Hs. apply IH. exact Hs.
    - apply Forall_app. split; [apply quiet_directives|]. repeat constructor.
    - apply Forall_app. split; [apply quiet_directives|]. apply Forall_app. split; [|repeat constructor].
      destruct (match c with Some c => get_type S (fst c) | None => Some t end) as [t'|]; [|constructor]. constructor; [exact I|].
      apply (quiet_sels (fst sub) (visit_selection_at S r t')). intros s Hs. apply IH. exact Hs.
  Qed.
  Lemma quiet_set r t sels : Forall quiet (visit_selection_set_at S r t sels).
  Proof. constructor; [exact I|]. apply quiet_flat. intros s _. apply quiet_selection. Qed.
  Lemma quiet_nothing {A} (f : levent -> list A) l : (forall ev, quiet ev -> f ev = []) -> Forall quiet l -> flat_map f l = [].
  Proof. intros Hf H. induction H as [|ev l H _ IH]; [reflexivity|]. cbn [flat_map]. rewrite (Hf ev H). exact IH. Qed.
  Lemma definitions_visited {A} (f : levent -> list A) : (forall ev, quiet ev -> f ev = []) ->
    flat_map f evs = flat_map (fun o => f (LEOp o)) (lops d) ++ flat_map (fun x => f (LEFrag x)) (lfrags d).
  Proof.
    intros Hf. unfold visit_at. rewrite flat_map_app. f_equal; unfold mapi; generalize 0 as k.
    - induction (lops d) as [|o l IH]; intros k; [reflexivity|]. cbn [mapi_from concat flat_map]. rewrite flat_map_app, IH. f_equal. unfold visit_operation_at. cbn [flat_map].
      rewrite <- app_nil_r. f_equal. apply (quiet_nothing f _ Hf). apply Forall_app. split; [apply quiet_directives|]. apply Forall_app. split.
      + unfold visit_variable_definitions_at. destruct (lop_vars o) as [|v vs]; [constructor|]. constructor; [exact I|]. apply quiet_flat. intros x _. apply Forall_app. split; [apply quiet_const_directives|repeat constructor].
      + destruct (op_root_name S (lop_type o)) as [n|]; [|constructor]. destruct (get_type S n); [apply quiet_set|repeat constructor].
    - induction (lfrags d) as [|x l IH]; intros k; [reflexivity|]. cbn [mapi_from concat flat_map]. rewrite flat_map_app, IH. f_equal. unfold visit_fragment_at.
      rewrite !flat_map_app. cbn [flat_map]. rewrite app_nil_r, (quiet_nothing f _ Hf (quiet_directives _ _ _)). rewrite (quiet_nothing f); [reflexivity|exact Hf|].
      destruct (get_type S (fst (lf_cond x))); [apply quiet_set|constructor].
  Qed.
  Lemma flat_nothing {A B} (l : list A) : flat_map (fun _ => @nil B) l = [].
  Proof. induction l as [|x l IH]; [reflexivity|exact IH]. Qed.
  Lemma filter_flat {A} (f : A -> bool) l : flat_map (fun x => if f x then [x] else []) l = filter f l.
  Proof. induction l as [|x l IH]; [reflexivity|]. cbn. destruct (f x); cbn; rewrite IH; reflexivity. Qed.
  Lemma operation_name_told : all_told (operation_name_errors_at evs).
  Proof.
    unfold operation_name_errors_at. rewrite definitions_visited by (intros ev H; destruct ev; first [destruct H; fail|reflexivity]). cbv beta iota. rewrite flat_nothing, app_nil_r.
    apply Forall_forall. intros e He. apply in_map_iff in He. destruct He as ((n & xs) & <- & He). apply (duplicates_In fst) in He. destruct He as (-> & He). cbn [fst snd].
    assert (E : map snd (with_key fst n (flat_map (fun o => match lop_name o with Some m => [(fst m, o)] | None => [] end) (lops d))) = filter (op_named n) (lops d)).
    { clear. unfold with_key, op_named. induction (lops d) as [|o l IH]; [reflexivity|]. cbn [flat_map filter]. destruct (lop_name o) as [m|]; [|exact IH]. cbn [app filter fst].
      destruct (teqb (fst m) n); cbn [map]; [f_equal|]; exact IH. }
    rewrite E. pose proof (to_operations S d hook str_enum one_of n) as K. cbn [plain_error validation_error].
    replace (flat_map (fun o => noted (tx "Operation definition with name " ++ quoted n) (lop_name o)) (filter (op_named n) (lops d)))
      with (map (fun sp : span => (tx "Operation definition with name " ++ quoted n, sp)) (name_spans (filter (op_named n) (lops d)))); [apply K|].
    - rewrite <- E, map_length. exact He.
    - unfold name_spans. clear. induction (filter (op_named n) (lops d)) as [|o l IH]; [reflexivity|]. cbn [flat_map]. rewrite <- IH. destruct (lop_name o); reflexivity.
  Qed.
  Lemma lone_anonymous_told : all_told (lone_anonymous_errors_at d evs).
  Proof.
    unfold lone_anonymous_errors_at. rewrite definitions_visited by (intros ev H; destruct ev; first [destruct H; fail|reflexivity]). cbv beta iota. rewrite flat_nothing, app_nil_r.
    replace (flat_map (fun o => match lop_name o with Some _ => [] | None => [o] end) (lops d)) with (filter anonymous (lops d)).
    - destruct (Nat.eqb (length (lops d)) 1) eqn:E; [constructor|]. destruct (filter anonymous (lops d)) as [|o l] eqn:F; [constructor|]. apply one_told. rewrite <- F.
      pose proof (to_anonymous S d hook str_enum one_of) as K. unfold at_places in K. rewrite map_map in K. apply K; [rewrite F; discriminate|]. apply Nat.eqb_neq. exact E.
    - rewrite <- filter_flat. unfold anonymous. clear. induction (lops d) as [|o l IH]; [reflexivity|]. cbn [flat_map]. rewrite IH. destruct (lop_name o); reflexivity.
  Qed.
  Lemma fragment_name_told : all_told (fragment_name_errors_at evs).
  Proof.
    unfold fragment_name_errors_at. rewrite definitions_visited by (intros ev H; destruct ev; first [destruct H; fail|reflexivity]). cbv beta iota. rewrite flat_nothing. cbn [app].
    replace (flat_map (fun x => [x]) (lfrags d)) with (lfrags d) by (induction (lfrags d) as [|x l IH]; [reflexivity|]; cbn; rewrite <- IH; reflexivity).
    apply Forall_forall. intros e He. apply in_map_iff in He. destruct He as ((n & xs) & <- & He). apply (duplicates_with lf_name) in He. destruct He as (-> & He).
    pose proof (to_fragments S d hook str_enum one_of n He) as K. unfold at_places in K. rewrite map_map in K. exact K.
  Qed.
  Lemma assoc_last_In {A} (l : list (name * A)) k a : assoc_last k l = Some a -> In (k, a) l.
  Proof. intros H. destruct (proj1 (assoc_last_split k l a) H) as (l1 & l2 & -> & _). apply in_or_app. right. left. reflexivity. Qed.
  Lemma unused_fragment_told : all_told (unused_fragment_errors_at d evs).
  Proof.
    apply Forall_forall. intros e He. apply in_map_iff in He. destruct He as ((n & f) & <- & He). cbn [snd]. apply to_unused.
    assert (K : forall l m, In (n, f) (fold_left (fun m ev => match ev with LESpread _ n _ _ _ => filter (fun e => negb (teqb (fst e) (fst n))) m | _ => m end) l m) -> In (n, f) m).
    { clear. induction l as [|ev l IH]; intros m H; [exact H|]. cbn [fold_left] in H. apply IH in H. destruct ev; try exact H. apply filter_In in H. exact (proj1 H). }
    apply K in He. apply tmap_of_In, assoc_last_In, in_map_iff in He. destruct He as (x & E & Hx). injection E as _ ->. exact Hx.
  Qed.

  (** ** Cycles of fragments *)
  Lemma selection_spreads_nodes : forall s n, In n (selection_spreads_at s) -> exists ds sp, In (NSelection (LSpread n ds sp)) (selection_nodes s).
  Proof.
    assert (G : forall sels n, (forall s, In s sels -> forall n, In n (selection_spreads_at s) -> exists ds sp, In (NSelection (LSpread n ds sp)) (selection_nodes s)) ->
      In n ((fix go (l : list lselection) : list lname := match l with [] => [] | x :: l' => selection_spreads_at x ++ go l' end) sels) ->
      exists ds sp, In (NSelection (LSpread n ds sp)) (flat_map selection_nodes sels)).
    { induction sels as [|s l IH]; intros n K H; [destruct H|]. apply in_app_or in H. destruct H as [H|H].
      - destruct (K s (or_introl eq_refl) n H) as (ds & sp & X). exists ds, sp. cbn [flat_map]. apply in_or_app. left. exact X.
      - destruct (IH n) as (ds & sp & X); [intros s' Hs; apply K; right; exact Hs|exact H|]. exists ds, sp. cbn [flat_map]. apply in_or_app. right. exact X. }
    induction s as [al n args ds sub sp IH|n ds sp|c ds sub sp IH] using lselection_induction; intros m H; cbn [selection_spreads_at] in H.
    - destruct sub as [[sub spl]|]; [|destruct H]. cbn [sub_of fst] in *. destruct (G sub m IH H) as (ds' & sp' & X). exists ds', sp'. cbn [selection_nodes fst]. right.
      apply in_or_app. right. right. apply in_or_app. right. apply in_or_app. right. right. exact X.
    - destruct H as [<-|[]]. exists ds, sp. left. reflexivity.
    - destruct (G (fst sub) m IH H) as (ds' & sp' & X). exists ds', sp'. cbn [selection_nodes]. right. apply in_or_app. right. apply in_or_app. right. right. exact X.
  Qed.
  Lemma fragment_spreads_nodes f n : In n (flat_map selection_spreads_at (fst (lf_set f))) -> exists ds sp, In (NSelection (LSpread n ds sp)) (fragment_nodes f).
  Proof.
    intros H. apply in_flat_map in H. destruct H as (s & Hs & H). destruct (selection_spreads_nodes s n H) as (ds & sp & X). exists ds, sp.
    unfold fragment_nodes, set_nodes. right. right. right. apply in_or_app. right. right. apply in_flat_map. exists s. auto.
  Qed.
  Lemma by_fragment n f spr : assoc n (spreads_by_fragment_at d) = Some (f, spr) -> In f (lfrags d) /\ fst (lf_name f) = n /\ spr = flat_map selection_spreads_at (fst (lf_set f)).
  Proof.
    unfold spreads_by_fragment_at. rewrite tmap_of_assoc. intros H. apply assoc_last_In, in_map_iff in H. destruct H as (x & E & Hx). injection E as <- <- <-. auto.
  Qed.
  Lemma detect_reaches target : forall fuel n visited f spr s, assoc n (spreads_by_fragment_at d) = Some (f, spr) ->
    detect_cycle_at (spreads_by_fragment_at d) target fuel n visited = Some (Some s) ->
    exists g ds sp, In g (lfrags d) /\ star spreads_to f g /\ In (NSelection (LSpread s ds sp)) (fragment_nodes g) /\ fst s = target.
  Proof.
    induction fuel as [|fuel IH]; intros n visited f spr s A H; [discriminate|]. cbn [detect_cycle_at] in H. destruct (mem text_dec n visited); [discriminate|]. rewrite A in H.
    destruct (by_fragment n f spr A) as (Hf & Hn & Hs). assert (Sub : forall x, In x spr -> exists ds sp, In (NSelection (LSpread x ds sp)) (fragment_nodes f)).
    { intros x Hx. apply fragment_spreads_nodes. rewrite <- Hs. exact Hx. }
    clear Hs A. induction spr as [|x l IHl]; [discriminate|]. destruct (teqb (fst x) target) eqn:E.
    - injection H as <-. destruct (Sub x (or_introl eq_refl)) as (ds & sp & X). exists f, ds, sp. split; [exact Hf|]. split; [apply star_refl|]. split; [exact X|]. apply teqb_eq. exact E.
    - destruct (detect_cycle_at _ target fuel (fst x) (n :: visited)) as [[e|]|] eqn:D; [| |discriminate].
      + injection H as ->. destruct (assoc (fst x) (spreads_by_fragment_at d)) as [[g spr']|] eqn:A.
        * destruct (IH _ _ g spr' s A D) as (g' & ds & sp & H1 & H2 & H3). exists g', ds, sp. split; [exact H1|]. split; [|exact H3].
          apply star_step with g; [|exact H2]. destruct (Sub x (or_introl eq_refl)) as (ds' & sp' & X). exists x, ds', sp'. split; [exact X|]. symmetry. exact (proj1 (proj2 (by_fragment _ _ _ A))).
        * exfalso. destruct fuel as [|fuel]; [discriminate|]. cbn [detect_cycle_at] in D. destruct (mem text_dec (fst x) (n :: visited)); [discriminate|]. rewrite A in D. discriminate.
      + apply IHl; [exact H|]. intros y Hy. apply Sub. right. exact Hy.
  Qed.
  Lemma cycles_told errs : fragment_cycle_errors_at d = Some errs -> all_told errs.
  Proof.
    unfold fragment_cycle_errors_at. intros H. apply Forall_forall. intros e He.
    assert (G : forall l errs, fold_right (fun (e : name * (lfragment * list lname)) acc =>
        match acc, detect_cycle_at (spreads_by_fragment_at d) (fst (lf_name (fst (snd e)))) (Datatypes.S (Datatypes.S (length (spreads_by_fragment_at d)))) (fst e) [] with
        | Some errs, Some (Some s) => Some (LFragmentSpreadCycle (fst (snd e)) s :: errs)
        | Some errs, Some None => Some errs
        | _, _ => None
        end) (Some []) l = Some errs -> In e errs ->
      exists n f spr s fuel, In (n, (f, spr)) l /\ detect_cycle_at (spreads_by_fragment_at d) (fst (lf_name f)) fuel n [] = Some (Some s) /\ e = LFragmentSpreadCycle f s).
    { clear. induction l as [|(n & f & spr) l IH]; intros errs H He; cbn [fold_right fst snd] in H; [injection H as <-; destruct He|].
      destruct (fold_right _ (Some []) l) as [errs'|]; [|discriminate]. destruct (detect_cycle_at _ _ _ n []) as [[s|]|] eqn:D; [| |discriminate].
      - injection H as <-. destruct He as [<-|He]; [exists n, f, spr, s; eexists; split; [left; reflexivity|split; [exact D|reflexivity]]|].
        destruct (IH errs' eq_refl He) as (n' & f' & spr' & s' & fu & A & B). exists n', f', spr', s', fu. split; [right; exact A|exact B].
      - injection H as <-. destruct (IH errs' eq_refl He) as (n' & f' & spr' & s' & fu & A & B). exists n', f', spr', s', fu. split; [right; exact A|exact B]. }
    destruct (G _ _ H He) as (n & f & spr & s & fu & A & D & ->). unfold spreads_by_fragment_at in A. apply tmap_of_In in A. rewrite <- tmap_of_assoc in A.
    destruct (detect_reaches _ _ _ _ f spr s A D) as (g & ds & sp & H1 & H2 & H3 & H4). apply (to_cycle S d hook str_enum one_of f g s ds sp); auto. exact (proj1 (by_fragment _ _ _ A)).
  Qed.

  (** ** The parts of the document *)
  Lemma ops_nodes o : In o (lops d) -> incl (operation_nodes o) (document_nodes d).
  Proof.
    intros H n Hn. unfold lops in H. apply in_flat_map in H. destruct H as ([o'|f] & Hx & Ho); [|destruct Ho]. destruct Ho as [->|[]]. apply in_flat_map. exists (inl o). auto.
  Qed.
  Lemma frags_nodes f : In f (lfrags d) -> incl (fragment_nodes f) (document_nodes d).
  Proof.
    intros H n Hn. unfold lfrags in H. apply in_flat_map in H. destruct H as ([o'|f'] & Hx & Hf); [destruct Hf|]. destruct Hf as [->|[]]. apply in_flat_map. exists (inr f). auto.
  Qed.
  Lemma each_nodes {A} (f : A -> list node) l x ns : In x l -> incl (flat_map f l) ns -> incl (f x) ns.
  Proof. intros H K n Hn. apply K, in_flat_map. exists x. auto. Qed.
  Lemma incl_appl_inv {A} (l m n : list A) : incl (l ++ m) n -> incl l n.
  Proof. intros H x Hx. apply H, in_or_app. auto. Qed.
  Lemma incl_appr_inv {A} (l m n : list A) : incl (l ++ m) n -> incl m n.
  Proof. intros H x Hx. apply H, in_or_app. auto. Qed.
  Lemma incl_tl_inv {A} (x : A) m n : incl (x :: m) n -> incl m n.
  Proof. intros H y Hy. apply H. right. exact Hy. Qed.
  Lemma op_set_nodes o : incl (set_nodes (lop_set o)) (operation_nodes o).
  Proof.
    destruct o as [ty sp n vs ds sub sp'|sub]; cbn [lop_set operation_nodes]; intros x Hx; right; [|exact Hx]. right. apply in_or_app. right. apply in_or_app. right. apply in_or_app. right. exact Hx.
  Qed.
  Lemma at_type_nodes r sels t : at_type S d r sels t -> incl (flat_map selection_nodes (fst sels)) (document_nodes d).
  Proof.
    induction 1 as [i o t Ho _|i f t Hf _|r sels t al n args ds sub sp fd t' _ IH Hin _ _|r sels t ds sub sp _ IH Hin|r sels t c ds sub sp t' _ IH Hin _].
    - apply (incl_tl_inv (NSet (lop_set o))). intros x Hx. apply (ops_nodes o (nth_error_In _ _ Ho)). apply op_set_nodes. exact Hx.
    - intros x Hx. apply (frags_nodes f (nth_error_In _ _ Hf)). unfold fragment_nodes, set_nodes. right. right. right. apply in_or_app. right. right. exact Hx.
    - pose proof (each_nodes _ _ _ _ Hin IH) as K. cbn [selection_nodes] in K. apply incl_tl_inv, incl_appr_inv, incl_tl_inv, incl_appr_inv, incl_appr_inv, incl_tl_inv in K. exact K.
    - pose proof (each_nodes _ _ _ _ Hin IH) as K. cbn [selection_nodes] in K. apply incl_tl_inv, incl_appr_inv, incl_appr_inv, incl_tl_inv in K. exact K.
    - pose proof (each_nodes _ _ _ _ Hin IH) as K. cbn [selection_nodes] in K. apply incl_tl_inv, incl_appr_inv, incl_appr_inv, incl_tl_inv in K. exact K.
  Qed.
  Lemma selected_nodes r t s : selected S d r t s -> incl (selection_nodes s) (document_nodes d).
  Proof. intros (sels & H & K). exact (each_nodes _ _ _ _ K (at_type_nodes r sels t H)). Qed.
  Lemma dirs_nodes ds : incl (flat_map directive_nodes (dirs_of ds)) (directives_nodes ds).
  Proof. destruct ds as [[l [sp|]]|]; cbn [dirs_of fst directives_nodes]; intros x Hx; [right; exact Hx|exact Hx|destruct Hx]. Qed.
  Lemma vars_nodes o v : In v (lop_vars o) -> incl (vardef_nodes v) (operation_nodes o).
  Proof.
    intros H x Hx. destruct o as [ty sp n vs ds sub sp'|sub]; [|destruct H]. cbn [lop_vars] in H. destruct vs as [[l spv]|]; [|destruct H]. cbn [vars_of fst] in H. cbn [operation_nodes vardefs_nodes fst].
    right. right. apply in_or_app. right. apply in_or_app. left. right. apply in_flat_map. exists v. auto.
  Qed.
  Lemma applied_nodes r ds loc : applied S d r ds loc -> incl (flat_map directive_nodes ds) (document_nodes d).
  Proof.
    destruct 1 as [i o Ho|i f Hf|r al n args ds sub fd (t & sp & H & _)|r t n ds sp H|r t c ds sub sp H|o v Ho Hv].
    - intros x Hx. apply (ops_nodes o (nth_error_In _ _ Ho)). destruct o as [ty sp n vs ds sub sp'|sub]; [|destruct Hx]. cbn [lop_dirs] in Hx. apply dirs_nodes in Hx. cbn [operation_nodes]. right. right.
      apply in_or_app. right. apply in_or_app. right. apply in_or_app. left. exact Hx.
    - intros x Hx. apply (frags_nodes f (nth_error_In _ _ Hf)). apply dirs_nodes in Hx. unfold fragment_nodes. right. right. right. apply in_or_app. left. exact Hx.
    - intros x Hx. apply dirs_nodes in Hx. apply (selected_nodes _ _ _ H). cbn [selection_nodes]. right. apply in_or_app. right. right. apply in_or_app. right. apply in_or_app. left. exact Hx.
    - intros x Hx. apply dirs_nodes in Hx. apply (selected_nodes _ _ _ H). cbn [selection_nodes]. right. right. exact Hx.
    - intros x Hx. apply dirs_nodes in Hx. apply (selected_nodes _ _ _ H). cbn [selection_nodes]. right. apply in_or_app. right. apply in_or_app. left. exact Hx.
    - intros x Hx. apply dirs_nodes in Hx. apply (ops_nodes o Ho). apply (vars_nodes o v Hv). unfold vardef_nodes. right. apply in_or_app. right. apply in_or_app. right. exact Hx.
  Qed.
  Lemma directive_in_nodes r x loc : directive_in S d r x loc -> incl (directive_nodes x) (document_nodes d).
  Proof. intros (ds & H & K). exact (each_nodes _ _ _ _ K (applied_nodes _ _ _ H)). Qed.
  Lemma args_nodes args : incl (flat_map argument_nodes (args_of args)) (arguments_nodes args).
  Proof. destruct args as [l|]; cbn [args_of arguments_nodes]; intros x Hx; [right; exact Hx|destruct Hx]. Qed.
  Lemma arguments_in_nodes r o args : arguments_in S d r o args -> incl (flat_map argument_nodes args) (document_nodes d).
  Proof.
    destruct 1 as [r al n args ds sub fd (t & sp & H & _)|r x loc H]; intros y Hy; apply args_nodes in Hy.
    - apply (selected_nodes _ _ _ H). cbn [selection_nodes]. right. apply in_or_app. right. right. apply in_or_app. left. exact Hy.
    - apply (directive_in_nodes _ _ _ H). right. right. exact Hy.
  Qed.
  Lemma given_nodes r a i : given S d r a i -> incl (argument_nodes a) (document_nodes d).
  Proof. intros (o & args & H & K & _). exact (each_nodes _ _ _ _ K (arguments_in_nodes _ _ _ H)). Qed.
  Lemma expects_nodes v t : expects S d v t -> incl (value_nodes v) (document_nodes d).
  Proof.
    destruct 1 as [r a i H|o v x t Ho Hv E _ _]; intros y Hy.
    - apply (given_nodes _ _ _ H). right. right. exact Hy.
    - apply (ops_nodes o Ho), (vars_nodes o v Hv). unfold vardef_nodes. right. apply in_or_app. right. apply in_or_app. left. rewrite E. exact Hy.
  Qed.

  (** ** Values *)
  Hypothesis tokens : tokens_only (document_nodes d).
  Lemma values_told : all_told (value_errors_at S hook str_enum one_of evs).
  Proof.
    assert (V : forall v t, expects S d v t -> Forall (fun e => tells (LInvalidValue e)) (coerce_value_at hook str_enum one_of S t v [])).
    { intros v t H. apply Forall_forall. intros e He. destruct (value_errors_told S hook str_enum one_of v) with (t := t) (p := ([] : path)) (one := true) (e := e) as (v' & t' & o' & p' & A & B & C).
      - intros x sp Hx. apply (tokens x sp). apply (expects_nodes v t H). exact Hx.
      - exact He.
      - destruct (told_offence S hook str_enum one_of v' t' o' p' _ _ C B) as (t2 & o2 & A2 & O). exact (to_value S d hook str_enum one_of v t v' t2 o2 p' _ _ H (inside_trans S _ _ _ _ _ _ _ _ A _ _ _ _ A2) O C). }
    unfold value_errors_at. apply Forall_map, Forall_forall. intros e He. apply in_flat_map in He. destruct He as (ev & Hv & He). apply (call S d) in Hv.
    destruct ev as [| | | | | | | | | | |a i|r a i|v|]; try (destruct He; fail).
    - refine (proj1 (Forall_forall _ _) (V _ _ _) e He). exact (ex_argument S d _ _ _ Hv).
    - refine (proj1 (Forall_forall _ _) (V _ _ _) e He). exact (ex_argument S d _ _ _ Hv).
    - destruct Hv as (o & Ho & Hv). destruct (lvd_default v) as [x|] eqn:E; [|destruct He]. destruct (get_type S (tref_base (plain_type (lvd_type v)))) as [t|] eqn:Et; [|destruct He]. destruct (td_is_input t) eqn:Ei; [|destruct He].
      refine (proj1 (Forall_forall _ _) (V _ _ _) e He). exact (ex_default S d o v x t Ho Hv E Et Ei).
  Qed.

  (** ** Variables *)
  Lemma sequence_In {A} (l : list (option (list A))) errs e : sequence l = Some errs -> In e errs -> exists x, In (Some x) l /\ In e x.
  Proof.
    revert errs. induction l as [|[x|] l IH]; intros errs H He; cbn [sequence] in H; [injection H as <-; destruct He| |discriminate].
    destruct (sequence l) as [y|]; [|discriminate]. injection H as <-. apply in_app_or in He. destruct He as [He|He]; [exists x; split; [left; reflexivity|exact He]|].
    destruct (IH y eq_refl He) as (z & Hz & K). exists z. split; [right; exact Hz|exact K].
  Qed.
  Lemma vars_nodes_at v : tokens_only (value_nodes v) -> forall x, In x (value_vars_at v) -> In (NValue (LVLeaf (VVar (fst x)) (snd x))) (value_nodes v).
  Proof.
    induction v as [v sp|vs sp IH|es sp IH] using lvalue_induction; intros W x H; cbn [value_vars_at] in H.
    - apply in_map_iff in H. destruct H as (n & <- & H). specialize (W v sp (or_introl eq_refl)). destruct v; try (destruct H; fail); try destruct W. destruct H as [<-|[]]. left. reflexivity.
    - apply in_flat_map in H. destruct H as (y & Hy & H). cbn [value_nodes]. right. apply in_flat_map. exists y. split; [exact Hy|]. apply IH; [exact Hy| |exact H].
      intros z spz Hz. apply (W z spz). right. apply in_flat_map. exists y. auto.
    - apply in_flat_map in H. destruct H as ((k & y) & Hy & H). cbn [value_nodes]. right. apply in_flat_map. exists (k, y). split; [exact Hy|]. right. cbn [snd] in *. apply (IH k y); [exact Hy| |exact H].
      intros z spz Hz. apply (W z spz). right. apply in_flat_map. exists (k, y). split; [exact Hy|right; exact Hz].
  Qed.
  Lemma usages_stand v : tokens_only (value_nodes v) -> forall l u, In u (value_usages_at S l v) -> stands S l v (fst u) (snd u).
  Proof.
    induction v as [v sp|vs sp IH|es sp IH] using lvalue_induction; intros W l u H; cbn [value_usages_at] in H.
    - apply in_map_iff in H. destruct H as (n & <- & H). specialize (W v sp (or_introl eq_refl)). destruct v; try (destruct H; fail); try destruct W. destruct H as [<-|[]]. apply st_here.
    - destruct (loc_type l) as [|inner req] eqn:E; [destruct H|]. apply in_flat_map in H. destruct H as (y & Hy & H). apply (st_item S l inner req vs sp y); [exact E|exact Hy|]. apply IH; [exact Hy| |exact H].
      intros z spz Hz. apply (W z spz). right. apply in_flat_map. exists y. auto.
    - destruct (loc_ivd l) as [i|] eqn:E; [|destruct H]. destruct (get_type S (tref_base (iv_type i))) as [[| | |io| | |]|] eqn:T; try (destruct H; fail).
      apply in_flat_map in H. destruct H as ((k & y) & Hy & H). cbn [fst snd] in *. destruct (get_ivd (io_fields io) (fst k)) as [f|] eqn:F; [|destruct H].
      apply (st_entry S l i io es sp k y f); auto. apply (IH k y); [exact Hy| |exact H].
      intros z spz Hz. apply (W z spz). right. apply in_flat_map. exists (k, y). split; [exact Hy|right; exact Hz].
  Qed.
  Lemma given_tokens r a i : given S d r a i -> tokens_only (value_nodes (la_value a)).
  Proof. intros H x sp Hx. apply (tokens x sp), (given_nodes _ _ _ H). right. right. exact Hx. Qed.
  Lemma undefined_variables_told errs : undefined_variable_errors_at d evs = Some errs -> all_told errs.
  Proof.
    intros H. apply Forall_forall. intros e He. destruct (sequence_In _ _ _ H He) as (l & Hl & He'). apply in_map_iff in Hl. destruct Hl as (r & Hr & _). unfold undefined_in_root_at in Hr.
    destruct (used_at evs r) as [|x0 xs] eqn:U; [injection Hr as <-; destruct He'|]. rewrite <- U in Hr. rewrite visit_same in Hr. destruct (operations_using_iff S (plain_document d) r) as (ops & Hops & K).
    rewrite Hops in Hr. injection Hr as <-. apply in_flat_map in He'. destruct He' as (i & Hi & He'). destruct (nth_error (lops d) i) as [o|] eqn:Eo; [|destruct He'].
    apply in_flat_map in He'. destruct He' as (x & Hx & He'). destruct (forallb _ (lop_vars o)) eqn:F; [|destruct He']. destruct He' as [<-|[]].
    unfold used_at in Hx. apply in_flat_map in Hx. destruct Hx as (ev & Hv & Hx). pose proof (call S d ev Hv) as C. destruct ev as [| | | | | | | | | | | |r' a iv| |]; try (destruct Hx; fail).
    destruct (root_eqb r' r) eqn:R; [|destruct Hx]. apply root_eqb_eq in R. subst r'. cbn [call_ok] in C.
    apply (to_variable S d hook str_enum one_of i o r a iv x Eo (proj1 (K i) Hi) C).
    - apply vars_nodes_at; [exact (given_tokens _ _ _ C)|exact Hx].
    - intros v Hv' E. pose proof (proj1 (forallb_forall _ _) F v Hv') as X. cbv beta in X. rewrite E, teqb_refl in X. discriminate.
  Qed.
  Lemma unused_variables_told errs : unused_variable_errors_at d evs = Some errs -> all_told errs.
  Proof.
    intros H. apply Forall_forall. intros e He. destruct (sequence_In _ _ _ H He) as (l & Hl & He'). unfold mapi in Hl. apply mapi_from_In in Hl. destruct Hl as (i & o & Ho & Hl). cbn [Nat.add] in Hl. symmetry in Hl.
    unfold unused_in_operation_at in Hl. destruct (lop_vars o) as [|v0 vs] eqn:V; [injection Hl as <-; destruct He'|]. rewrite <- V in Hl. destruct (dfs _ _ _ _ _) as [fr|]; [|discriminate]. injection Hl as <-.
    apply in_flat_map in He'. destruct He' as (v & Hv & He'). destruct (existsb _ _); [destruct He'|]. destruct He' as [<-|[]]. exact (to_variable_unused S d hook str_enum one_of i o v Ho Hv).
  Qed.
  Lemma disallowed_usages_told errs : disallowed_usage_errors_at S d evs = Some errs -> all_told errs.
  Proof.
    intros H. apply Forall_forall. intros e He. destruct (sequence_In _ _ _ H He) as (l & Hl & He'). apply in_map_iff in Hl. destruct Hl as (r & Hr & _). unfold disallowed_in_root_at in Hr.
    destruct (usages_at S evs r) as [|x0 xs] eqn:U; [injection Hr as <-; destruct He'|]. rewrite <- U in Hr. rewrite visit_same in Hr. destruct (operations_using_iff S (plain_document d) r) as (ops & Hops & K).
    rewrite Hops in Hr. injection Hr as <-. apply in_flat_map in He'. destruct He' as (i & Hi & He'). destruct (nth_error (lops d) i) as [o|] eqn:Eo; [|destruct He'].
    apply in_flat_map in He'. destruct He' as (u & Hx & He'). destruct (find _ (lop_vars o)) as [v|] eqn:F; [|destruct He']. destruct (usage_allowed S (plain_vardef v) (snd u)) eqn:A; [destruct He'|]. destruct He' as [<-|[]].
    unfold usages_at in Hx. apply in_flat_map in Hx. destruct Hx as (ev & Hv & Hx). pose proof (call S d ev Hv) as C. destruct ev as [| | | | | | | | | | | |r' a iv| |]; try (destruct Hx; fail).
    destruct (root_eqb r' r) eqn:R; [|destruct Hx]. apply root_eqb_eq in R. subst r'. cbn [call_ok] in C. apply find_some in F. destruct F as (Fi & Fn). apply teqb_eq in Fn.
    apply (to_usage S d hook str_enum one_of i o r a iv (fst u) v (snd u) Eo (proj1 (K i) Hi) C); auto; [apply usages_stand; [exact (given_tokens _ _ _ C)|exact Hx]|].
    intros Q. assert (Z : usage_allowed S (plain_vardef v) (snd u) = true) by (apply usage_allowed_iff; intros _; exact Q). congruence.
  Qed.

  (** ** Fields that do not merge *)
  Variable ord : nat -> list (list fctx) -> list (list fctx).
  Hypothesis ord_In : forall k l g, In g (ord k l) <-> In g l.
  Lemma real_set id sels : real (plain_document d) id sels -> exists s, ValidatorAt.set_at d id = Some s /\ map plain_selection (fst s) = sels.
  Proof using.
    unfold ValidatorAt.set_at. induction 1 as [i o H|i f H|id sels j al n args ds sub _ IH Hj N|id sels j c ds sub _ IH Hj].
    - rewrite ops_plain, nth_error_map in H. cbn [fst snd set_along root_set]. destruct (nth_error (lops d) i) as [o'|]; [|discriminate]. injection H as <-. exists (lop_set o'). split; [reflexivity|].
      destruct o'; reflexivity.
    - rewrite frags_plain, nth_error_map in H. cbn [fst snd set_along root_set]. destruct (nth_error (lfrags d) i) as [f'|]; [|discriminate]. injection H as <-. exists (lf_set f'). split; reflexivity.
    - destruct IH as (s & E & <-). cbn [inner_id fst snd set_along]. rewrite E. rewrite nth_error_map in Hj. unfold inner_set. destruct (nth_error (fst s) j) as [[al' n' args' ds' sub' sp| |]|]; try discriminate.
      injection Hj as <- <- <- <- <-. destruct sub' as [l|]; [|destruct N; reflexivity]. exists l. split; reflexivity.
    - destruct IH as (s & E & <-). cbn [inner_id fst snd set_along]. rewrite E. rewrite nth_error_map in Hj. unfold inner_set. destruct (nth_error (fst s) j) as [[| |c' ds' sub' sp]|]; try discriminate.
      injection Hj as <- <- <-. exists sub'. split; reflexivity.
  Qed.
  Lemma set_at_placed id s : ValidatorAt.set_at d id = Some s -> set_placed d id s.
  Proof using.
    destruct id as (r & path). unfold ValidatorAt.set_at. cbn [fst snd]. revert s. induction path as [|j path IH]; intros s E; cbn [set_along] in E.
    - destruct r as [i|i]; cbn [root_set] in E; [destruct (nth_error (lops d) i) as [o|] eqn:N|destruct (nth_error (lfrags d) i) as [f|] eqn:N]; try discriminate; injection E as <-.
      + apply pl_operation, N.
      + apply pl_fragment, N.
    - destruct (set_along d r path) as [t|]; [|discriminate]. specialize (IH t eq_refl). unfold inner_set in E.
      destruct (nth_error (fst t) j) as [[al n args ds [sub|] sp| |c ds sub sp]|] eqn:N; try discriminate; injection E as <-.
      + eapply pl_field; [exact IH|exact N].
      + eapply pl_inline; [exact IH|exact N].
  Qed.
  Lemma here_stands x : here (plain_document d) x -> exists n, stands_at d x n /\ field_name_at d (cx_id x) = Some n /\ fst n = cx_name x.
  Proof using.
    intros (id & sels & j & ds & H & Hj & E). destruct (real_set _ _ H) as (s & Es & <-). rewrite nth_error_map in Hj.
    destruct (nth_error (fst s) j) as [[al' n' args' ds' sub' sp| |]|] eqn:En; try discriminate. injection Hj as A B C _ D. exists n'. split; [|split].
    - destruct id as (ro & path). exists ro, path, j, s, al', args', ds', sub', sp. split; [exact E|]. split; [exact (set_at_placed _ _ Es)|]. split; [exact En|]. split; [exact A|]. split; [exact B|]. split; [exact C|].
      rewrite <- D. destruct sub'; reflexivity.
    - rewrite E. unfold field_name_at, ValidatorAt.set_at in *. cbn [inner_id fst snd]. rewrite Es, En. reflexivity.
    - exact B.
  Qed.
  Lemma merging_told es : merging_errors S (plain_document d) ord = Some es -> all_told (map LFieldSelectionsDoNotMerge es).
  Proof using ord_In.
    intros H. apply Forall_map, Forall_forall. intros e He. pose proof (merging_errors_justified S (plain_document d) ord ord_In es e H He) as J. apply to_merge.
    assert (A : forall id a b why la lb, about (plain_document d) id a b ->
      exists s na nb, set_placed d id s /\ stands_at d a na /\ stands_at d b nb /\ fst na = cx_name a /\ fst nb = cx_name b /\
        merge_conversion d (tx why) id a b la lb = {| er_message := tx "Fields in selection set do not merge due to " ++ tx why;
          er_primary := Some (tx "Fields in selection set do not merge", snd s); er_secondary := [(la, snd na); (lb, snd nb)] |}).
    { intros id a b why la lb ((sels & R) & Ha & Hb & _). destruct (real_set _ _ R) as (s & Es & _). destruct (here_stands a Ha) as (na & A1 & A2 & A3). destruct (here_stands b Hb) as (nb & B1 & B2 & B3).
      exists s, na, nb. split; [exact (set_at_placed _ _ Es)|]. split; [exact A1|]. split; [exact B1|]. split; [exact A3|]. split; [exact B3|]. unfold merge_conversion. rewrite Es, A2, B2. reflexivity. }
    destruct e as [id a b|id a b|id a b]; destruct J as (J & W); pose proof (proj2 (proj2 (proj2 J))) as Ek; cbn [validation_error].
    - destruct (A id a b "incompatible types" (tx "First field has type " ++ tref_display (fd_type (cx_def a))) (tx "Second field has type " ++ tref_display (fd_type (cx_def b))) J)
        as (s & na & nb & H1 & H2 & H3 & H4 & H5 & ->). eapply tm_intro; eauto. left. repeat (split; [reflexivity|]). intros X. apply same_type_shape_iff in X. congruence.
    - destruct (A id a b "unequal field names" (tx "First field") (tx "Second field") J) as (s & na & nb & H1 & H2 & H3 & H4 & H5 & ->). eapply tm_intro; eauto. right. left.
      repeat (split; [reflexivity|]). congruence.
    - destruct (A id a b "unequal arguments" (tx "First field") (tx "Second field") J) as (s & na & nb & H1 & H2 & H3 & H4 & H5 & ->). eapply tm_intro; eauto. right. right.
      repeat (split; [reflexivity|]). destruct W as (W1 & W2). split; [congruence|exact W2].
  Qed.

  Theorem validate_told errs : validate_at S hook str_enum one_of ord d = Some errs -> all_told errs.
  Proof using tokens ord_In.
    unfold validate_at. destruct (existsb _ evs); [discriminate|]. destruct (merging_errors S (plain_document d) ord) as [merging|] eqn:M; [|discriminate].
    destruct (fragment_cycle_errors_at d) as [cycles|] eqn:C; [|discriminate]. destruct (undefined_variable_errors_at d evs) as [undefined|] eqn:U; [|discriminate].
    destruct (unused_variable_errors_at d evs) as [unused|] eqn:N; [|discriminate]. destruct (disallowed_usage_errors_at S d evs) as [disallowed|] eqn:D; [|discriminate]. intros H. injection H as <-.
    repeat (apply Forall_app; split); auto using operation_name_told, lone_anonymous_told, subscription_told, field_selection_told, merging_told, operation_type_told, leaf_selection_told,
      argument_name_told, argument_uniqueness_told, required_argument_told, fragment_name_told, fragment_type_told, fragment_composite_told, unused_fragment_told, spread_target_told,
      cycles_told, spread_possible_told, values_told, directive_defined_told, directive_location_told, directive_uniqueness_told, variable_uniqueness_told, variable_input_told,
      undefined_variables_told, unused_variables_told, disallowed_usages_told.
  Qed.
End RulesTold.
