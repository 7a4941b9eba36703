(** Forgetting the positions in [ValidatorAt.v] gives the validator of [Validator.v]. *)
From Coq Require Import String.
From Verif Require Import Base Ast Graph Maps Location Parser ParserAt ParserSpec ParserAtSpec Doc DocRules DocVariables FragmentCycles Merging Validator CoercionAt
  ValidatorAt ValidatorAtSpec.

(** * Lists and maps *)
Lemma map_flat_map {A B C} (g : B -> C) (f : A -> list B) l : map g (flat_map f l) = flat_map (fun x => map g (f x)) l.
Proof. induction l as [|x l IH]; cbn; [reflexivity|]. now rewrite map_app, IH. Qed.
Lemma flat_map_map {A B C} (g : A -> B) (f : B -> list C) l : flat_map f (map g l) = flat_map (fun x => f (g x)) l.
Proof. induction l as [|x l IH]; cbn; [reflexivity|]. now rewrite IH. Qed.
Lemma mapi_from_map {A B C} (g : A -> B) (f : nat -> B -> C) l : forall i, mapi_from f i (map g l) = mapi_from (fun i x => f i (g x)) i l.
Proof. induction l as [|x l IH]; intros i; cbn; [reflexivity|]. f_equal. apply IH. Qed.
Lemma mapi_map {A B C} (g : A -> B) (f : nat -> B -> C) l : mapi f (map g l) = mapi (fun i x => f i (g x)) l.
Proof. apply mapi_from_map. Qed.
Lemma map_mapi {A B C} (g : B -> C) (f : nat -> A -> B) l : map g (mapi f l) = mapi (fun i x => g (f i x)) l.
Proof. unfold mapi. generalize 0. induction l as [|x l IH]; intros i; cbn; [reflexivity|]. f_equal. apply IH. Qed.
Lemma mapi_ext {A B} (f g : nat -> A -> B) l : (forall i x, In x l -> f i x = g i x) -> mapi f l = mapi g l.
Proof.
  unfold mapi. generalize 0. induction l as [|x l IH]; intros i H; cbn; [reflexivity|]. rewrite H by (left; reflexivity). f_equal. apply IH. intros j y Hy. apply H. right; exact Hy.
Qed.
Lemma filter_map {A B} (g : A -> B) (f : B -> bool) l : filter f (map g l) = map g (filter (fun x => f (g x)) l).
Proof. induction l as [|x l IH]; cbn; [reflexivity|]. rewrite IH. destruct (f (g x)); reflexivity. Qed.
Lemma existsb_map {A B} (g : A -> B) (f : B -> bool) l : existsb f (map g l) = existsb (fun x => f (g x)) l.
Proof. induction l as [|x l IH]; cbn; [reflexivity|]. now rewrite IH. Qed.
Lemma forallb_map {A B} (g : A -> B) (f : B -> bool) l : forallb f (map g l) = forallb (fun x => f (g x)) l.
Proof. induction l as [|x l IH]; cbn; [reflexivity|]. now rewrite IH. Qed.
Lemma find_map {A B} (g : A -> B) (f : B -> bool) l : find f (map g l) = option_map g (find (fun x => f (g x)) l).
Proof. induction l as [|x l IH]; cbn; [reflexivity|]. destruct (f (g x)); [reflexivity|exact IH]. Qed.
Lemma nth_error_mapped {A B} (g : A -> B) l i : nth_error (map g l) i = option_map g (nth_error l i).
Proof. revert i; induction l as [|x l IH]; intros [|i]; cbn; auto. Qed.
Definition over {A B} (f : A -> B) (p : name * A) : name * B := (fst p, f (snd p)).
Lemma assoc_over {A B} (f : A -> B) k (l : list (name * A)) : assoc k (map (over f) l) = option_map f (assoc k l).
Proof. induction l as [|[k' a] l IH]; cbn; [reflexivity|]. destruct (teqb k k'); [reflexivity|exact IH]. Qed.
Lemma tinsert_over {A B} (f : A -> B) k a (l : list (name * A)) : tinsert k (f a) (map (over f) l) = map (over f) (tinsert k a l).
Proof. induction l as [|[k' a'] l IH]; cbn; [reflexivity|]. destruct (tcmp k k'); cbn; try reflexivity. f_equal. exact IH. Qed.
Lemma tmap_over {A B} (f : A -> B) (l : list (name * A)) : tmap_of (map (over f) l) = map (over f) (tmap_of l).
Proof.
  unfold tmap_of. change (@nil (text * B)) with (map (over f) (@nil (text * A))). generalize (@nil (text * A)).
  induction l as [|[k a] l IH]; intros m; cbn [map fold_left over fst snd]; [reflexivity|]. rewrite tinsert_over. apply IH.
Qed.
Lemma duplicates_map {A B} (f : A -> B) (key : B -> text) l :
  duplicates key (map f l) = map (over (map f)) (duplicates (fun x => key (f x)) l).
Proof.
  unfold duplicates. assert (E : group key (map f l) = map (over (map f)) (group (fun x => key (f x)) l)).
  { unfold group. change (@nil (text * list B)) with (map (over (map f)) (@nil (text * list A))). generalize (@nil (text * list A)).
    induction l as [|x l IH]; intros m; cbn [map fold_left]; [reflexivity|]. rewrite <- IH. f_equal. clear.
    induction m as [|[k xs] m IH]; cbn; [reflexivity|]. destruct (tcmp (key (f x)) k); cbn; unfold over in *; cbn [fst snd] in *; try reflexivity.
    - rewrite map_app. reflexivity.
    - rewrite IH. reflexivity. }
  rewrite E, filter_map. f_equal. apply filter_ext. intros [k xs]. cbn. rewrite map_length. reflexivity.
Qed.
Lemma match_map {A B C} (g : A -> B) (l : list A) (x y : C) : match map g l with [] => x | _ => y end = match l with [] => x | _ => y end.
Proof. destruct l; reflexivity. Qed.

(** * Induction *)
Lemma lvalue_induction (P : lvalue -> Prop) :
  (forall v sp, P (LVLeaf v sp)) -> (forall vs sp, (forall v, In v vs -> P v) -> P (LVList vs sp)) ->
  (forall es sp, (forall k v, In (k, v) es -> P v) -> P (LVObj es sp)) -> forall v, P v.
Proof.
  intros H1 H2 H3. fix IH 1. intros [v sp|vs sp|es sp]; [apply H1| |].
  - apply H2. induction vs as [|x vs IHl]; intros v []; [subst v; apply IH|apply IHl; assumption].
  - apply H3. induction es as [|[k x] es IHl]; intros k' v []; [|apply (IHl k' v); assumption]. injection H as <- <-. apply IH.
Qed.
Lemma lselection_induction (P : lselection -> Prop) :
  (forall al n args ds sub sp, (forall s, In s (sub_of sub) -> P s) -> P (LField al n args ds sub sp)) ->
  (forall n ds sp, P (LSpread n ds sp)) ->
  (forall c ds sub sp, (forall s, In s (fst sub) -> P s) -> P (LInline c ds sub sp)) -> forall s, P s.
Proof.
  intros H1 H2 H3. fix IH 1. intros [al n args ds sub sp|n ds sp|c ds sub sp]; [apply H1|apply H2|apply H3].
  - destruct sub as [[l spl]|]; cbn; [|intros s []]. induction l as [|x l IHl]; intros s []; [subst s; apply IH|apply IHl; assumption].
  - destruct sub as [l spl]. cbn. induction l as [|x l IHl]; intros s []; [subst s; apply IH|apply IHl; assumption].
Qed.

(** * The document *)
Lemma ops_plain d : doc_ops (plain_document d) = map plain_operation (lops d).
Proof. unfold plain_document, document_of, lops. cbn. rewrite flat_map_map, map_flat_map. apply flat_map_ext. intros [o|f]; reflexivity. Qed.
Lemma frags_plain d : doc_frags (plain_document d) = map plain_fragment (lfrags d).
Proof. unfold plain_document, document_of, lfrags. cbn. rewrite flat_map_map, map_flat_map. apply flat_map_ext. intros [o|f]; reflexivity. Qed.
Lemma args_plain o : plain_arguments o = map plain_argument (args_of o).
Proof. destruct o; reflexivity. Qed.
Lemma dirs_plain o : plain_directives o = map plain_directive (dirs_of o).
Proof. destruct o; reflexivity. Qed.
Lemma vars_plain o : plain_vardefs o = map plain_vardef (vars_of o).
Proof. destruct o; reflexivity. Qed.
Lemma op_plain o : plain_operation o =
  {| op_explicit := match o with LExplicit _ _ _ _ _ _ _ => true | LImplicit _ => false end; op_type := lop_type o; op_name := option_map fst (lop_name o);
     op_vars := map plain_vardef (lop_vars o); op_dirs := map plain_directive (lop_dirs o); op_sel := map plain_selection (fst (lop_set o)) |}.
Proof. destruct o; cbn; [|reflexivity]. rewrite vars_plain, dirs_plain. reflexivity. Qed.

(** * The calls of the visitor *)
Section Visit.
  Variable S : schema.
  Notation ev := (map plain_event).
  Lemma var_args_plain r args defs : ev (var_args_at r args defs) = var_args r (map plain_argument args) defs.
  Proof. unfold var_args_at, var_args. rewrite map_flat_map, flat_map_map. apply flat_map_ext. intros a. cbn. destruct (get_ivd defs (fst (la_name a))); reflexivity. Qed.
  Lemma const_args_plain args defs : ev (const_args_at args defs) = const_args (map plain_argument args) defs.
  Proof. unfold const_args_at, const_args. rewrite map_flat_map, flat_map_map. apply flat_map_ext. intros a. cbn. destruct (get_ivd defs (fst (la_name a))); reflexivity. Qed.
  Lemma var_directives_plain r ds loc : ev (var_directives_at S r ds loc) = var_directives S r (map plain_directive ds) loc.
  Proof.
    unfold var_directives_at, var_directives. destruct ds as [|x ds]; [reflexivity|]. cbn [map]. rewrite <- (map_cons plain_directive x ds). f_equal.
    rewrite map_flat_map, flat_map_map. apply flat_map_ext. intros y. unfold var_directive_at, var_directive. cbn. f_equal.
    destruct (get_ddef S (fst (ld_name y))); [|reflexivity]. rewrite var_args_plain, args_plain. reflexivity.
  Qed.
  Lemma const_directives_plain ds loc : ev (const_directives_at S ds loc) = const_directives S (map plain_directive ds) loc.
  Proof.
    unfold const_directives_at, const_directives. destruct ds as [|x ds]; [reflexivity|]. cbn [map]. rewrite <- (map_cons plain_directive x ds). f_equal.
    rewrite map_flat_map, flat_map_map. apply flat_map_ext. intros y. unfold const_directive_at, const_directive. cbn. f_equal.
    destruct (get_ddef S (fst (ld_name y))); [|reflexivity]. rewrite const_args_plain, args_plain. reflexivity.
  Qed.
  Lemma visit_go_at r t l : (fix go (l : list lselection) : list levent := match l with [] => [] | x :: l' => visit_selection_at S r t x ++ go l' end) l =
    flat_map (visit_selection_at S r t) l.
  Proof. induction l as [|x l IH]; cbn; [reflexivity|]. now rewrite IH. Qed.
  Lemma visit_go r t l : (fix go (l : list selection) : list event := match l with [] => [] | x :: l' => visit_selection S r t x ++ go l' end) l =
    flat_map (visit_selection S r t) l.
  Proof. induction l as [|x l IH]; cbn; [reflexivity|]. now rewrite IH. Qed.
  Lemma visit_each r t l : (forall s, In s l -> forall t, ev (visit_selection_at S r t s) = visit_selection S r t (plain_selection s)) ->
    ev (flat_map (visit_selection_at S r t) l) = flat_map (visit_selection S r t) (map plain_selection l).
  Proof.
    intros H. rewrite map_flat_map, flat_map_map. induction l as [|x l IH]; cbn; [reflexivity|]. rewrite H by (left; reflexivity). f_equal. apply IH. intros s Hs. apply H. right; exact Hs.
  Qed.
  Lemma visit_selection_plain r s : forall t, ev (visit_selection_at S r t s) = visit_selection S r t (plain_selection s).
  Proof.
    induction s as [al n args ds sub sp IH|n ds sp|c ds sub sp IH] using lselection_induction; intros t; cbn [visit_selection_at visit_selection plain_selection].
    - destruct (get_field (td_fields t) (fst n)) as [fd|]; [|reflexivity]. cbn [map plain_event]. rewrite args_plain, dirs_plain.
      assert (Es : match sub with Some l => map plain_selection (fst l) | None => [] end = map plain_selection (sub_of sub)) by (destruct sub; reflexivity).
      f_equal; [f_equal; destruct sub; reflexivity|]. clear Es. rewrite !map_app, var_directives_plain, var_args_plain. do 2 f_equal.
      destruct sub as [[l spl]|]; cbn [sub_of fst] in *; [|reflexivity]. destruct l as [|x l]; [reflexivity|]. cbn [map]. rewrite <- (map_cons plain_selection x l).
      destruct (get_type S (tref_base (fd_type fd))) as [t'|]; [|reflexivity]. rewrite visit_go_at, visit_go. cbn [map plain_event]. f_equal. exact (visit_each r t' (x :: l) IH).
    - rewrite map_app, var_directives_plain, dirs_plain. reflexivity.
    - rewrite !map_app, var_directives_plain, dirs_plain. cbn [map plain_event]. f_equal. f_equal.
      replace (match option_map fst c with Some c => get_type S c | None => Some t end) with (match c with Some c => get_type S (fst c) | None => Some t end) by (destruct c; reflexivity).
      destruct (match c with Some c => get_type S (fst c) | None => Some t end) as [t'|]; [|reflexivity]. rewrite visit_go_at, visit_go. cbn [map plain_event]. f_equal. apply visit_each. exact IH.
  Qed.
  Lemma visit_set_plain r t l : ev (visit_selection_set_at S r t l) = visit_selection_set S r t (map plain_selection (fst l)).
  Proof. unfold visit_selection_set_at, visit_selection_set. cbn [map plain_event]. f_equal. apply visit_each. intros s _. apply visit_selection_plain. Qed.
  Lemma visit_variables_plain vs : ev (visit_variable_definitions_at S vs) = visit_variable_definitions S (map plain_vardef vs).
  Proof.
    unfold visit_variable_definitions_at, visit_variable_definitions. destruct vs as [|v vs]; [reflexivity|]. cbn [map]. rewrite <- (map_cons plain_vardef v vs). cbn [map plain_event]. f_equal.
    rewrite map_flat_map, <- (map_cons plain_vardef v vs), flat_map_map. apply flat_map_ext. intros x. rewrite map_app, const_directives_plain. cbn. rewrite dirs_plain. reflexivity.
  Qed.
  Lemma visit_same d : ev (visit_at S d) = visit S (plain_document d).
  Proof.
    unfold visit_at, visit. rewrite ops_plain, frags_plain, map_app, !concat_map, !map_mapi, !mapi_map. f_equal; f_equal; apply mapi_ext.
    - intros i o _. unfold visit_operation_at, visit_operation. rewrite (op_plain o). cbn [op_type op_dirs op_vars op_sel]. cbn [map plain_event]. rewrite (op_plain o). f_equal. rewrite !map_app, var_directives_plain, visit_variables_plain. do 2 f_equal.
      destruct (op_root_name S (lop_type o)) as [n|]; [|reflexivity]. destruct (get_type S n); [apply visit_set_plain|reflexivity].
    - intros i f _. unfold visit_fragment_at, visit_fragment. rewrite !map_app, var_directives_plain. cbn [plain_fragment fr_cond fr_dirs fr_sel]. rewrite dirs_plain. f_equal.
      destruct (get_type S (fst (lf_cond f))); [apply visit_set_plain|reflexivity].
  Qed.
End Visit.

(** * Input coercion *)
Section CoerceSame.
  Variable hook : name -> value -> option text.
  Variable str_enum one_of : bool.
  Variable S : schema.
  Notation co := (coerce hook str_enum one_of S).
  Notation col := (coerce_at hook str_enum one_of S).
  Lemma at_token_plain sp e : plain_cerr (at_token sp e) = e.
  Proof. destruct e; cbn; try reflexivity; [rewrite repeat_length; reflexivity| |]; rewrite map_map; cbn; rewrite map_id; reflexivity. Qed.
  Lemma coerce_leaf v sp t p allow : col (LVLeaf v sp) t p allow = map (at_token sp) (co v t p allow).
  Proof. destruct t; reflexivity. Qed.
  Lemma one_of_plain d v es p : map plain_cerr (one_of_errors_at one_of d v es p) =
    one_of_errors one_of d (plain_value v) (map (fun kv => (fst (fst kv), plain_value (snd kv))) es) p.
  Proof.
    unfold one_of_errors_at, one_of_errors. destruct (one_of && has_directive (tx "oneOf") (io_dirs d)); [|reflexivity].
    rewrite !filter_map, !map_length. cbn [snd]. rewrite map_app. f_equal.
    - destruct (Nat.eqb _ 0); [reflexivity|]. cbn. rewrite map_map. reflexivity.
    - destruct (Nat.eqb _ 1); [reflexivity|]. cbn. rewrite map_map. reflexivity.
  Qed.
  Lemma object_plain d v es sub sub' p :
    (forall k, match sub k, sub' k with
               | Some f, Some f' => forall t p a, map plain_cerr (f t p a) = f' t p a
               | None, None => True
               | _, _ => False
               end) ->
    map plain_cerr (coerce_object_at one_of d v es sub p) =
    coerce_object one_of d (plain_value v) (map (fun kv => (fst (fst kv), plain_value (snd kv))) es) sub' p.
  Proof.
    intros H. unfold coerce_object_at, coerce_object. rewrite !map_app. f_equal; [|f_equal; [|f_equal; [|f_equal]]].
    - rewrite duplicates_map, !map_map. apply map_ext. intros [k xs]. cbn. rewrite !map_length. reflexivity.
    - rewrite filter_map, !map_map. cbn. reflexivity.
    - rewrite map_flat_map. apply flat_map_ext. intros i. specialize (H (iv_name i)). destruct (sub (iv_name i)), (sub' (iv_name i)); try contradiction; [apply H|reflexivity].
    - apply one_of_plain.
    - replace (filter (fun i => match sub' (iv_name i), iv_default i with None, None => tref_required (iv_type i) | _, _ => false end) (io_fields d))
        with (filter (fun i => match sub (iv_name i), iv_default i with None, None => tref_required (iv_type i) | _, _ => false end) (io_fields d)).
      + destruct (filter _ (io_fields d)); reflexivity.
      + apply filter_ext. intros i. specialize (H (iv_name i)). destruct (sub (iv_name i)), (sub' (iv_name i)); try contradiction; reflexivity.
  Qed.
  Lemma coerce_plain v : forall t p allow, map plain_cerr (col v t p allow) = co (plain_value v) t p allow.
  Proof.
    induction v as [v sp|vs sp IH|es sp IH] using lvalue_induction; intros t.
    - intros p allow. rewrite coerce_leaf, map_map. erewrite map_ext; [apply map_id|]. apply at_token_plain.
    - induction t as [n r|inner IHt r]; intros p allow.
      + cbn [coerce_at coerce plain_value]. destruct (get_type S n) as [[b|sd|od|io|ed|ud|idf]|]; try reflexivity.
        * destruct b; reflexivity.
        * unfold coerce_custom_at, coerce_custom. cbn [plain_value]. destruct (hook (sc_name sd) (VList (map plain_value vs))); reflexivity.
      + cbn [coerce_at coerce plain_value]. rewrite concat_map, map_mapi, mapi_map. f_equal. apply mapi_ext. intros i x Hx. apply IH. exact Hx.
    - induction t as [n r|inner IHt r]; intros p allow.
      + cbn [coerce_at coerce plain_value]. destruct (get_type S n) as [[b|sd|od|io|ed|ud|idf]|]; try reflexivity.
        * destruct b; reflexivity.
        * unfold coerce_custom_at, coerce_custom. cbn [plain_value]. destruct (hook (sc_name sd) _); reflexivity.
        * change (VObj (map (fun kv => (fst (fst kv), plain_value (snd kv))) es)) with (plain_value (LVObj es sp)). apply object_plain. intros k.
          clear - IH. induction es as [|[k' x] es IHe]; cbn; [exact I|]. destruct (teqb k (fst k')); [|apply IHe; intros k0 v0 H0; apply (IH k0 v0); right; exact H0].
          apply (IH k' x). left; reflexivity.
      + cbn [coerce_at coerce plain_value]. destruct allow; [|reflexivity]. exact (IHt p true).
  Qed.
End CoerceSame.

(** * The rules *)
Section RulesSame.
  Variable S : schema.
  Notation forget := (map plain_error).
  Notation ev := (map plain_event).
  (** rules that look at one call at a time *)
  Lemma per_event {A} (f : levent -> list ldoc_error) (g : event -> list A) (h : A -> doc_error) evs :
    (forall e, forget (f e) = map h (g (plain_event e))) -> forget (flat_map f evs) = map h (flat_map g (ev evs)).
  Proof. intros H. rewrite !map_flat_map, flat_map_map. apply flat_map_ext. exact H. Qed.
  Lemma operation_names_same evs :
    forget (operation_name_errors_at evs) = map (fun e => NonUniqueOperationNames (fst e) (map snd (snd e))) (operation_name_errors (ev evs)).
  Proof.
    unfold operation_name_errors_at, operation_name_errors.
    replace (flat_map (fun ev => match ev with EOp o => if op_explicit o then match op_name o with Some n => [(n, o)] | None => [] end else [] | _ => [] end) (ev evs))
      with (map (over plain_operation) (flat_map (fun ev => match ev with LEOp o => match lop_name o with Some n => [(fst n, o)] | None => [] end | _ => [] end) evs)).
    - rewrite duplicates_map. unfold over at 1. cbn [fst]. rewrite !map_map. apply map_ext. intros [k xs]. cbn. rewrite !map_map. reflexivity.
    - rewrite map_flat_map, flat_map_map. apply flat_map_ext. intros []; try reflexivity. destruct o; cbn; [|reflexivity]. destruct n; reflexivity.
  Qed.
  Lemma lone_anonymous_same d evs : forget (lone_anonymous_errors_at d evs) =
    match lone_anonymous_errors (plain_document d) (ev evs) with Some ops => [NotLoneAnonymousOperation ops] | None => [] end.
  Proof.
    unfold lone_anonymous_errors_at, lone_anonymous_errors. rewrite ops_plain, map_length.
    replace (flat_map (fun ev => match ev with EOp o => match op_name o with None => [o] | Some _ => [] end | _ => [] end) (ev evs))
      with (map plain_operation (flat_map (fun ev => match ev with LEOp o => match lop_name o with None => [o] | Some _ => [] end | _ => [] end) evs)).
    - rewrite match_map. destruct (negb _ && negb _); reflexivity.
    - rewrite map_flat_map, flat_map_map. apply flat_map_ext. intros []; try reflexivity. destruct o as [ty sp [n|] vs ds sub spo|sub]; reflexivity.
  Qed.
  Lemma subscriptions_same d evs : forget (subscription_errors_at d evs) = map SubscriptionRootNotSingleField (subscription_errors (plain_document d) (ev evs)).
  Proof. apply per_event. intros []; try reflexivity. cbn. destruct (subscription_root_invalid _ _); reflexivity. Qed.
  Lemma field_selections_same evs :
    forget (field_selection_errors_at evs) = map (fun e => FieldDoesNotExistOnType (fst e) (snd e)) (field_selection_errors (ev evs)).
  Proof.
    apply per_event. intros []; try reflexivity. cbn. destruct (td_composite t); [|reflexivity]. rewrite !map_flat_map, flat_map_map. apply flat_map_ext.
    intros []; try reflexivity. cbn. destruct (get_field (td_fields t) (fst n)); reflexivity.
  Qed.
  Lemma operation_types_same evs : forget (operation_type_errors_at S evs) = map OperationTypeNotDefined (operation_type_errors S (ev evs)).
  Proof.
    apply per_event. intros []; try reflexivity. destruct o as [ty sp n vs ds sub spo|sub]; [|reflexivity]. cbn. destruct ty; try reflexivity.
    - destruct (s_mutation S); reflexivity.
    - destruct (s_subscription S); reflexivity.
  Qed.
  Lemma leaves_same evs : forget (leaf_selection_errors_at S evs) = map LeafFieldSelection (leaf_selection_errors S (ev evs)).
  Proof.
    apply per_event. intros []; try reflexivity. cbn. destruct (leaf_type S (fd_type fd)).
    - destruct sub as [[[|x l] spl]|]; reflexivity.
    - rewrite match_map. destruct (sub_of sub); reflexivity.
  Qed.
  Lemma unknown_plain o args defs : forget (unknown_args_at o args defs) = map (fun e => ArgumentDoesNotExist (fst e) (snd e)) (unknown_args o (map plain_argument args) defs).
  Proof. unfold unknown_args_at, unknown_args. rewrite !map_flat_map, flat_map_map. apply flat_map_ext. intros a. cbn. destruct (find _ defs); reflexivity. Qed.
  Lemma argument_names_same evs : forget (argument_name_errors_at S evs) = map (fun e => ArgumentDoesNotExist (fst e) (snd e)) (argument_name_errors S (ev evs)).
  Proof.
    assert (D : forall x, forget (unknown_args_directive_at S x) = map (fun e => ArgumentDoesNotExist (fst e) (snd e)) (unknown_args_directive S (plain_directive x))).
    { intros x. unfold unknown_args_directive_at, unknown_args_directive. cbn. destruct (get_ddef S (fst (ld_name x))); [|reflexivity]. rewrite unknown_plain, args_plain. reflexivity. }
    apply per_event. intros []; try reflexivity; try apply D. apply unknown_plain.
  Qed.
  Lemma argument_uniqueness_same evs :
    forget (argument_uniqueness_errors_at evs) = map (fun e => NonUniqueArgumentNames (fst e) (snd e)) (argument_uniqueness_errors (ev evs)).
  Proof.
    assert (D : forall args, forget (repeated_args_at args) = map (fun e => NonUniqueArgumentNames (fst e) (snd e)) (duplicates fst (map plain_argument args))).
    { intros args. unfold repeated_args_at. rewrite duplicates_map, !map_map. reflexivity. }
    apply per_event. intros []; try reflexivity; cbn; rewrite ?args_plain; apply D.
  Qed.
  Lemma missing_plain args defs :
    missing_of args defs =
    filter (fun i => tref_required (iv_type i) && match iv_default i with None => true | Some _ => false end
                     && negb (match assoc_last (iv_name i) (map plain_argument args) with Some _ => true | None => false end)) defs.
  Proof.
    apply filter_ext. intros i. f_equal. f_equal. induction args as [|a args IH]; cbn; [reflexivity|].
    destruct (assoc_last (iv_name i) (map plain_argument args)); [rewrite IH; apply orb_true_r|]. rewrite IH, orb_false_r. destruct (teqb (iv_name i) (fst (la_name a))); reflexivity.
  Qed.
  Lemma required_arguments_same evs :
    forget (required_argument_errors_at S evs) = map (fun e => RequiredArgumentsMissing (fst e) (snd e)) (required_argument_errors S (ev evs)).
  Proof.
    assert (D : forall x, forget (missing_args_directive_at S x) = map (fun e => RequiredArgumentsMissing (fst e) (snd e)) (missing_args_directive S (plain_directive x))).
    { intros x. unfold missing_args_directive_at, missing_args_directive, missing_args. cbn. destruct (get_ddef S (fst (ld_name x))); [|reflexivity].
      rewrite args_plain, <- missing_plain. destruct (missing_of _ _); reflexivity. }
    apply per_event. intros []; try reflexivity; try apply D. cbn. unfold missing_args. rewrite <- missing_plain. destruct (missing_of _ _); reflexivity.
  Qed.
  Lemma fragment_names_same evs :
    forget (fragment_name_errors_at evs) = map (fun e => NonUniqueFragmentDefinitionNames (fst e) (snd e)) (fragment_name_errors (ev evs)).
  Proof.
    unfold fragment_name_errors_at, fragment_name_errors.
    replace (flat_map (fun ev => match ev with EFrag f => [f] | _ => [] end) (ev evs)) with (map plain_fragment (flat_map (fun ev => match ev with LEFrag f => [f] | _ => [] end) evs)).
    - rewrite duplicates_map, !map_map. reflexivity.
    - rewrite map_flat_map, flat_map_map. apply flat_map_ext. intros []; reflexivity.
  Qed.
  Lemma fragment_types_same evs : forget (fragment_type_errors_at S evs) = map FragmentTargetTypeDoesNotExist (fragment_type_errors S (ev evs)).
  Proof.
    apply per_event. intros []; try reflexivity; cbn.
    - destruct (get_type S (fst (lf_cond f))); reflexivity.
    - destruct cond as [c|]; cbn; [|reflexivity]. destruct (get_type S (fst c)); reflexivity.
  Qed.
  Lemma fragment_composites_same evs : forget (fragment_composite_errors_at S evs) = map FragmentTargetTypeNotComposite (fragment_composite_errors S (ev evs)).
  Proof.
    apply per_event. intros []; try reflexivity; cbn.
    - destruct (get_type S (fst (lf_cond f))) as [t|]; [destruct (td_composite t)|]; reflexivity.
    - destruct cond as [c|]; cbn; [|reflexivity]. destruct (get_type S (fst c)) as [t'|]; [destruct (td_composite t')|]; reflexivity.
  Qed.
  Lemma unused_fragments_same d evs : forget (unused_fragment_errors_at d evs) = map FragmentDefinitionUnused (unused_fragment_errors (plain_document d) (ev evs)).
  Proof.
    unfold unused_fragment_errors_at, unused_fragment_errors. rewrite frags_plain.
    replace (tmap_of (map (fun f => (fr_name f, f)) (map plain_fragment (lfrags d)))) with (map (over plain_fragment) (tmap_of (map (fun f => (fst (lf_name f), f)) (lfrags d)))).
    - generalize (tmap_of (map (fun f => (fst (lf_name f), f)) (lfrags d))). induction evs as [|e evs IH]; intros m; cbn [map fold_left].
      + rewrite !map_map. reflexivity.
      + rewrite IH. f_equal. f_equal. f_equal. destruct e; try reflexivity. cbn. rewrite filter_map. reflexivity.
    - rewrite <- tmap_over, !map_map. reflexivity.
  Qed.
  Lemma spread_targets_same d evs : forget (spread_target_errors_at d evs) = map FragmentSpreadTargetUndefined (spread_target_errors (plain_document d) (ev evs)).
  Proof.
    apply per_event. intros []; try reflexivity. cbn [plain_event]. unfold tmem. rewrite frags_plain, map_map, existsb_map. cbn. destruct (existsb _ (lfrags d)); reflexivity.
  Qed.
  Lemma spreads_plain s : map fst (selection_spreads_at s) = selection_spreads (plain_selection s).
  Proof.
    induction s as [al n args ds sub sp IH|n ds sp|c ds sub sp IH] using lselection_induction; cbn [selection_spreads_at selection_spreads plain_selection]; [|reflexivity|].
    - destruct sub as [[l spl]|]; [|reflexivity]. cbn [sub_of fst] in *. induction l as [|x l IHl]; cbn; [reflexivity|]. rewrite map_app, IH by (left; reflexivity). f_equal. apply IHl. intros s Hs. apply IH. right; exact Hs.
    - destruct sub as [l spl]. cbn [fst] in *. induction l as [|x l IHl]; cbn; [reflexivity|]. rewrite map_app, IH by (left; reflexivity). f_equal. apply IHl. intros s Hs. apply IH. right; exact Hs.
  Qed.
  Definition plain_entry (e : lfragment * list lname) : fragment * list name := (plain_fragment (fst e), map fst (snd e)).
  Lemma by_fragment_plain d : spreads_by_fragment (plain_document d) = map (over plain_entry) (spreads_by_fragment_at d).
  Proof.
    unfold spreads_by_fragment, spreads_by_fragment_at. rewrite frags_plain, <- tmap_over, !map_map. f_equal. apply map_ext. intros f. unfold over, plain_entry. cbn. f_equal. f_equal.
    unfold contained_spreads, plain_set. rewrite map_flat_map, flat_map_map. apply flat_map_ext. intros s. symmetry. apply spreads_plain.
  Qed.
  Lemma detect_plain m target fuel : forall n visited,
    detect_cycle (map (over plain_entry) m) target fuel n visited = option_map is_some (detect_cycle_at m target fuel n visited).
  Proof.
    induction fuel as [|fuel IH]; intros n visited; [reflexivity|]. cbn [detect_cycle detect_cycle_at]. destruct (mem text_dec n visited); [reflexivity|].
    rewrite assoc_over. destruct (assoc n m) as [[f spreads]|]; cbn [option_map plain_entry fst snd]; [|reflexivity].
    induction spreads as [|s l IHl]; cbn [map]; [reflexivity|]. destruct (teqb (fst s) target); [reflexivity|]. rewrite IH.
    destruct (detect_cycle_at m target fuel (fst s) (n :: visited)) as [[e|]|]; cbn [option_map is_some]; [reflexivity|exact IHl|reflexivity].
  Qed.
  Lemma cycles_same d : option_map forget (fragment_cycle_errors_at d) = option_map (map FragmentSpreadCycle) (fragment_cycle_errors (plain_document d)).
  Proof.
    unfold fragment_cycle_errors_at, fragment_cycle_errors. rewrite by_fragment_plain, map_length. generalize (Datatypes.S (Datatypes.S (length (spreads_by_fragment_at d)))). intros fuel.
    set (m := spreads_by_fragment_at d). generalize m at 2 4. intros l. induction l as [|[k [f sp]] l IH]; [reflexivity|]. cbn [map fold_right over fst snd plain_entry].
    rewrite detect_plain. cbn [plain_fragment fr_name]. set (X := fold_right _ _ l) in *. set (Y := fold_right _ _ (map _ l)) in *.
    destruct X as [errs|], Y as [errs'|]; cbn in IH; try discriminate; [|reflexivity]. injection IH as IH.
    destruct (detect_cycle_at m (fst (lf_name f)) fuel k []) as [[s|]|]; cbn; congruence.
  Qed.
  Lemma spreads_possible_same d evs : forget (spread_possible_errors_at S d evs) = map FragmentSpreadIsNotPossible (spread_possible_errors S (plain_document d) (ev evs)).
  Proof.
    apply per_event. intros []; try reflexivity; cbn [plain_event].
    - destruct cond as [c|]; cbn [option_map]; [|reflexivity]. destruct (get_type S (fst c)) as [t'|]; [destruct (spread_is_not_possible S t t')|]; reflexivity.
    - destruct (cached_fragment (plain_document d) (fst n)) as [f|]; [|reflexivity]. destruct (get_type S (fr_cond f)) as [t'|]; [destruct (spread_is_not_possible S t t')|]; reflexivity.
  Qed.
  Lemma values_same hook str_enum one_of evs : forget (value_errors_at S hook str_enum one_of evs) = map InvalidValue (value_errors S hook str_enum one_of (ev evs)).
  Proof.
    unfold value_errors_at, value_errors. rewrite map_map. cbn [plain_error]. rewrite <- (map_map plain_cerr InvalidValue). f_equal. rewrite map_flat_map, flat_map_map. apply flat_map_ext.
    intros []; try reflexivity; cbn; try apply coerce_plain. destruct (lvd_default v) as [x|]; cbn; [|reflexivity].
    destruct (match get_type S (tref_base (plain_type (lvd_type v))) with Some t => td_is_input t | None => false end); [apply coerce_plain|reflexivity].
  Qed.
  Lemma directives_defined_same evs : forget (directive_defined_errors_at S evs) = map DirectiveDoesNotExist (directive_defined_errors S (ev evs)).
  Proof. apply per_event. intros []; try reflexivity; cbn; unfold undefined_directive_at, undefined_directive; cbn; destruct (get_ddef S (fst (ld_name d))); reflexivity. Qed.
  Lemma directive_locations_same evs :
    forget (directive_location_errors_at S evs) = map (fun e => DirectiveInInvalidLocation (fst e) (snd e)) (directive_location_errors S (ev evs)).
  Proof.
    apply per_event. intros []; try reflexivity; cbn; unfold misplaced_directive_at, misplaced_directive; cbn; (destruct (get_ddef S (fst (ld_name d))) as [dd|]; [|reflexivity]);
      destruct (forallb _ (dd_locs dd)); reflexivity.
  Qed.
  Lemma directive_uniqueness_same evs : forget (directive_uniqueness_errors_at S evs) = map DirectivesNotUnique (directive_uniqueness_errors S (ev evs)).
  Proof.
    assert (D : forall ds, forget (repeated_directives_at S ds) = map DirectivesNotUnique (repeated_directives S (map plain_directive ds))).
    { intros ds. unfold repeated_directives_at, repeated_directives. rewrite duplicates_map, !map_flat_map, flat_map_map. cbn. apply flat_map_ext. intros [k xs]. cbn.
      destruct (get_ddef S k) as [dd|]; [|reflexivity]. destruct (dd_repeatable dd); reflexivity. }
    apply per_event. intros []; try reflexivity; apply D.
  Qed.
  Lemma variable_uniqueness_same evs :
    forget (variable_uniqueness_errors_at evs) = map (fun e => NonUniqueVariableDefinitionNames (fst e) (snd e)) (variable_uniqueness_errors (ev evs)).
  Proof. apply per_event. intros []; try reflexivity. cbn. rewrite duplicates_map, !map_map. reflexivity. Qed.
  Lemma variable_inputs_same evs : forget (variable_input_errors_at S evs) = map VariableDefinitionTypeNotInput (variable_input_errors S (ev evs)).
  Proof.
    apply per_event. intros []; try reflexivity. cbn.
    destruct (match get_type S (tref_base (plain_type (lvd_type v))) with Some t => td_is_input t | None => false end); reflexivity.
  Qed.

  (** ** Variables *)
  Lemma value_vars_plain v : map fst (value_vars_at v) = value_vars (plain_value v).
  Proof.
    induction v as [v sp|vs sp IH|es sp IH] using lvalue_induction; cbn [value_vars_at value_vars plain_value].
    - rewrite map_map. cbn. apply map_id.
    - induction vs as [|x vs IHl]; [reflexivity|]. cbn [flat_map map]. etransitivity; [apply map_app|]. f_equal; [apply IH; left; reflexivity|]. apply IHl. intros v Hv. apply IH. right; exact Hv.
    - induction es as [|[k x] es IHl]; [reflexivity|]. cbn [flat_map map snd]. etransitivity; [apply map_app|]. f_equal; [apply (IH k x); left; reflexivity|]. apply IHl. intros k' v Hv. apply (IH k' v). right; exact Hv.
  Qed.
  Lemma used_plain evs r : map fst (used_at evs r) = used_names (ev evs) r.
  Proof. unfold used_at, used_names. rewrite map_flat_map, flat_map_map. apply flat_map_ext. intros []; try reflexivity. cbn. destruct (root_eqb r0 r); [apply value_vars_plain|reflexivity]. Qed.
  Lemma sequence_same {A B} (f : A -> option (list ldoc_error)) (g : A -> option (list B)) (h : B -> doc_error) l :
    (forall x, In x l -> option_map forget (f x) = option_map (map h) (g x)) ->
    option_map forget (sequence (map f l)) = option_map (map h) (sequence (map g l)).
  Proof.
    induction l as [|x l IH]; intros H; cbn; [reflexivity|]. pose proof (H x (or_introl eq_refl)) as Hx. specialize (IH (fun y Hy => H y (or_intror Hy))).
    destruct (f x), (g x); cbn in Hx; try discriminate; [|reflexivity]. destruct (sequence (map f l)), (sequence (map g l)); cbn in IH |- *; try discriminate; [|reflexivity].
    rewrite !map_app. congruence.
  Qed.
  Lemma op_vars_plain o : op_vars (plain_operation o) = map plain_vardef (lop_vars o).
  Proof. rewrite op_plain. reflexivity. Qed.
  Lemma undefined_same d evs : option_map forget (undefined_variable_errors_at d evs) =
    option_map (map (fun e => VariableNotDefined (fst e) (snd e))) (undefined_variable_errors (plain_document d) (ev evs)).
  Proof.
    unfold undefined_variable_errors_at, undefined_variable_errors. apply sequence_same. intros r _. unfold undefined_in_root_at, undefined_in_root. rewrite <- used_plain.
    destruct (used_at evs r) as [|x xs]; [reflexivity|]. cbn [map].
    destruct (operations_using (plain_document d) (ev evs) r) as [ops|]; cbn [option_map]; [|reflexivity]. f_equal. change (fst x :: map fst xs) with (map fst (x :: xs)).
    rewrite !map_flat_map. apply flat_map_ext. intros i. rewrite ops_plain, nth_error_mapped. destruct (nth_error (lops d) i) as [o|]; cbn [option_map]; [|reflexivity].
    rewrite !map_flat_map, flat_map_map. apply flat_map_ext. intros y. rewrite op_vars_plain, forallb_map. cbn. destruct (forallb _ (lop_vars o)); reflexivity.
  Qed.
  Lemma sequence_mapi_same {A B C} (k : A -> C) (f : nat -> A -> option (list ldoc_error)) (g : nat -> C -> option (list B)) (h : B -> doc_error) l :
    (forall i x, In x l -> option_map forget (f i x) = option_map (map h) (g i (k x))) ->
    option_map forget (sequence (mapi f l)) = option_map (map h) (sequence (mapi g (map k l))).
  Proof.
    unfold mapi. generalize 0. induction l as [|x l IH]; intros i H; cbn; [reflexivity|]. pose proof (H i x (or_introl eq_refl)) as Hx. specialize (IH (Datatypes.S i) (fun j y Hy => H j y (or_intror Hy))).
    destruct (f i x), (g i (k x)); cbn in Hx; try discriminate; [|reflexivity].
    destruct (sequence (mapi_from f (Datatypes.S i) l)), (sequence (mapi_from g (Datatypes.S i) (map k l))); cbn in IH |- *; try discriminate; [|reflexivity].
    rewrite !map_app. congruence.
  Qed.
  Lemma unused_same d evs : option_map forget (unused_variable_errors_at d evs) =
    option_map (map (fun e => VariableDefinitionUnused (fst e) (snd e))) (unused_variable_errors (plain_document d) (ev evs)).
  Proof.
    unfold unused_variable_errors_at, unused_variable_errors. rewrite ops_plain. apply sequence_mapi_same. intros i o _. unfold unused_in_operation_at, unused_in_operation. rewrite op_vars_plain.
    destruct (lop_vars o) as [|v vs]; [reflexivity|]. cbn [map]. change (plain_vardef v :: map plain_vardef vs) with (map plain_vardef (v :: vs)).
    destruct (dfs root_dec _ _ (ROp i) []) as [fragments|]; cbn [option_map]; [|reflexivity]. f_equal. rewrite !map_flat_map, flat_map_map. apply flat_map_ext. intros y.
    replace (flat_map (used_names (ev evs)) (fragments ++ [ROp i])) with (map fst (flat_map (used_at evs) (fragments ++ [ROp i]))).
    - unfold tmem. rewrite existsb_map. cbn [plain_vardef vd_name].
      change (existsb (fun x : lname => teqb (fst (lvd_name y)) (fst x)) (flat_map (used_at evs) (fragments ++ [ROp i])))
        with (existsb (fun x : text * (nat * nat) => teqb (fst (lvd_name y)) (fst x)) (flat_map (used_at evs) (fragments ++ [ROp i]))).
      destruct (existsb _ _); reflexivity.
    - rewrite map_flat_map. apply flat_map_ext. intros r. apply used_plain.
  Qed.
  Definition plain_usage (u : lname * location) : name * location := (fst (fst u), snd u).
  Lemma value_usages_plain v : forall l, map plain_usage (value_usages_at S l v) = value_usages S l (plain_value v).
  Proof.
    induction v as [v sp|vs sp IH|es sp IH] using lvalue_induction; intros l; cbn [value_usages_at plain_value].
    - rewrite map_map. unfold plain_usage. cbn [fst snd]. erewrite map_ext; [apply map_id|]. intros []; reflexivity.
    - cbn [value_usages]. destruct (loc_type l) as [|inner]; [reflexivity|]. induction vs as [|x vs IHl]; [reflexivity|]. cbn [flat_map map]. etransitivity; [apply map_app|].
      f_equal; [apply IH; left; reflexivity|]. apply IHl. intros v Hv. apply IH. right; exact Hv.
    - cbn [value_usages]. destruct (loc_ivd l) as [i|]; [|reflexivity]. destruct (get_type S (tref_base (iv_type i))) as [[b|sd|od|io|ed|ud|idf]|]; try reflexivity.
      induction es as [|[k x] es IHl]; [reflexivity|]. cbn [flat_map map fst snd]. etransitivity; [apply map_app|]. f_equal.
      + destruct (get_ivd (io_fields io) (fst k)); [|reflexivity]. apply (IH k x). left; reflexivity.
      + apply IHl. intros k' v Hv. apply (IH k' v). right; exact Hv.
  Qed.
  Lemma usages_plain evs r : map plain_usage (usages_at S evs r) = usages_of S (ev evs) r.
  Proof. unfold usages_at, usages_of. rewrite map_flat_map, flat_map_map. apply flat_map_ext. intros []; try reflexivity. cbn. destruct (root_eqb r0 r); [apply value_usages_plain|reflexivity]. Qed.
  Lemma disallowed_same d evs : option_map forget (disallowed_usage_errors_at S d evs) =
    option_map (map (fun e => InvalidVariableUsage (fst e) (fst (fst (snd e))) (snd (fst (snd e))) (snd (snd e)))) (disallowed_usage_errors S (plain_document d) (ev evs)).
  Proof.
    unfold disallowed_usage_errors_at, disallowed_usage_errors. apply sequence_same. intros r _. unfold disallowed_in_root_at, disallowed_in_root. rewrite <- usages_plain.
    destruct (usages_at S evs r) as [|x xs]; [reflexivity|]. cbn [map]. change (plain_usage x :: map plain_usage xs) with (map plain_usage (x :: xs)).
    destruct (operations_using (plain_document d) (ev evs) r) as [ops|]; cbn [option_map]; [|reflexivity]. f_equal. rewrite !map_flat_map. apply flat_map_ext. intros i.
    rewrite ops_plain, nth_error_mapped. destruct (nth_error (lops d) i) as [o|]; cbn [option_map]; [|reflexivity].
    rewrite !map_flat_map, flat_map_map. apply flat_map_ext. intros [y l]. cbn [plain_usage fst snd]. rewrite op_vars_plain, find_map. cbn.
    destruct (find _ (lop_vars o)) as [vd|]; cbn [option_map]; [|reflexivity]. destruct (usage_allowed S (plain_vardef vd) l); reflexivity.
  Qed.

  Theorem validate_same hook str_enum one_of ord d :
    option_map forget (validate_at S hook str_enum one_of ord d) = validate S hook str_enum one_of ord (plain_document d).
  Proof.
    unfold validate_at, validate. rewrite <- visit_same. set (evs := visit_at S d).
    assert (Ep : existsb (fun e => match e with EPanic => true | _ => false end) (ev evs) = existsb (fun e => match e with LEPanicked => true | _ => false end) evs).
    { rewrite existsb_map. clear. induction evs as [|e evs IH]; cbn; [reflexivity|]. rewrite IH. destruct e; reflexivity. }
    rewrite Ep. clear Ep. destruct (existsb _ evs); [reflexivity|]. destruct (merging_errors S (plain_document d) ord) as [merging|]; [|reflexivity].
    pose proof (cycles_same d) as Hc. pose proof (undefined_same d evs) as Hu. pose proof (unused_same d evs) as Hn. pose proof (disallowed_same d evs) as Hd.
    destruct (fragment_cycle_errors_at d) as [c|], (fragment_cycle_errors (plain_document d)) as [c'|]; cbn in Hc; try discriminate; [|reflexivity].
    destruct (undefined_variable_errors_at d evs) as [u|], (undefined_variable_errors (plain_document d) (ev evs)) as [u'|]; cbn in Hu; try discriminate; [|reflexivity].
    destruct (unused_variable_errors_at d evs) as [n|], (unused_variable_errors (plain_document d) (ev evs)) as [n'|]; cbn in Hn; try discriminate; [|reflexivity].
    destruct (disallowed_usage_errors_at S d evs) as [z|], (disallowed_usage_errors S (plain_document d) (ev evs)) as [z'|]; cbn in Hd; try discriminate; [|reflexivity].
    injection Hc as Hc. injection Hu as Hu. injection Hn as Hn. injection Hd as Hd. cbn [option_map]. f_equal. rewrite !map_app.
    rewrite operation_names_same, lone_anonymous_same, subscriptions_same, field_selections_same, operation_types_same, leaves_same, argument_names_same, argument_uniqueness_same,
      required_arguments_same, fragment_names_same, fragment_types_same, fragment_composites_same, unused_fragments_same, spread_targets_same, spreads_possible_same, values_same,
      directives_defined_same, directive_locations_same, directive_uniqueness_same, variable_uniqueness_same, variable_inputs_same, Hc, Hu, Hn, Hd, map_map. reflexivity.
  Qed.
End RulesSame.
