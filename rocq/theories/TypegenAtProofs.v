(** The rules of the macro on documents with positions: the same as without, and exactly what the specification asks for. *)
From Coq Require Import String Lia.
From Verif Require Import Base Ast Graph Location DefParser ParserAt ParserAtSpec Doc DocSpec DocProofs DocRules DocRulesProofs DocTypingProofs Typegen TypegenProofs ValidatorAt ValidatorAtSpec ValidatorAtProofs LocationSpec LocationProps ValidatorErrorProofs ValidatorMarkProofs TypegenAt TypegenAtSpec.
Local Open Scope string_scope.
Local Open Scope list_scope.

(** * The same errors *)
Lemma find_map_map {A B C D} (g : A -> B) (h : C -> D) (f : B -> option D) (f' : A -> option C) l :
  (forall x, f (g x) = option_map h (f' x)) -> Typegen.find_map f (map g l) = option_map h (Typegen.find_map f' l).
Proof. intros H. induction l as [|x l IH]; cbn; [reflexivity|]. rewrite H. destruct (f' x); cbn; [reflexivity|exact IH]. Qed.
Lemma filter_map_map {A B C D} (g : A -> B) (h : C -> D) (f : B -> option D) (f' : A -> option C) l :
  (forall x, f (g x) = option_map h (f' x)) -> Typegen.filter_map f (map g l) = map h (Typegen.filter_map f' l).
Proof. intros H. induction l as [|x l IH]; cbn; [reflexivity|]. rewrite H. destruct (f' x); cbn; [f_equal|]; exact IH. Qed.
Lemma assoc_last_over {A B} (f : A -> B) k (l : list (name * A)) : assoc_last k (map (over f) l) = option_map f (assoc_last k l).
Proof.
  induction l as [|[k' a] l IH]; cbn; [reflexivity|]. rewrite IH. destruct (assoc_last k l); cbn; [reflexivity|]. destruct (teqb k k'); reflexivity.
Qed.
Lemma duplicates_ext {A} (key key' : A -> text) l : (forall x, key x = key' x) -> duplicates key l = duplicates key' l.
Proof.
  intros H. unfold duplicates. f_equal. unfold group. generalize (@nil (text * list A)). induction l as [|x l IH]; intros m; cbn [fold_left]; [reflexivity|]. rewrite IH. f_equal.
  clear - H. induction m as [|[k xs] m IH]; cbn [ginsert]; rewrite H; [reflexivity|]. rewrite IH. reflexivity.
Qed.
Definition plain_isolation (i : isolation_at) : isolation :=
  match i with IsoNoneAt => IsoNone | IsoSpreadAt x => IsoSpread (fst (fst x)) | IsoErrorAt x => IsoError (fst (fst x)) end.
Lemma isolated_plain set : isolated (map plain_selection (fst set)) = plain_isolation (isolated_at set).
Proof.
  unfold isolated, isolated_at. rewrite (find_map_map plain_selection (fun x : lname * (nat * nat) => fst (fst x)) sel_spread spread_of) by (intros []; reflexivity).
  destruct (Typegen.find_map spread_of (fst set)) as [x|]; cbn [option_map]; [|reflexivity]. rewrite map_length. destruct (negb _); reflexivity.
Qed.
Lemma inlines_plain l : Typegen.filter_map sel_inline (map plain_selection l) = map (fun i : linline => option_map fst (fst i)) (Typegen.filter_map inline_of l).
Proof. apply filter_map_map. intros []; reflexivity. Qed.
Definition plain_pair (x : option lname * lname) : option name * name := (option_map fst (fst x), fst (snd x)).
Lemma typename_first_plain l : typename_first (map plain_selection l) = (fst (typename_first_at l), map plain_pair (snd (typename_first_at l))).
Proof.
  unfold typename_first, typename_first_at. cbn [fst snd]. rewrite mapi_map.
  assert (E : concat (mapi (fun i s => match plain_selection s with SField al n _ _ _ => [(i, (al, n))] | _ => [] end) l) =
              map (fun x => (fst x, plain_pair (snd x))) (concat (mapi (fun i s => match s with LField al n _ _ _ _ => [(i, (al, n))] | _ => [] end) l))).
  { rewrite concat_map, map_mapi. f_equal. apply mapi_ext. intros i [] _; reflexivity. }
  rewrite E, existsb_map, filter_map, !map_map. f_equal.
Qed.
Lemma cached_plain d n : cached_fragment (plain_document d) n = option_map plain_fragment (cached_fragment_at d n).
Proof. unfold cached_fragment, cached_fragment_at. rewrite frags_plain, map_map, <- assoc_last_over, map_map. reflexivity. Qed.
Lemma set_errors_plain d set t : map plain_tgerr (set_errors_at d set t) = set_errors (plain_document d) (map plain_selection (fst set)) t.
Proof.
  destruct t as [b|s|o|io|e|u|i]; try reflexivity; cbn [set_errors_at set_errors].
  - unfold object_set_errors_at, object_set_errors. rewrite isolated_plain, inlines_plain, map_app, !map_map. f_equal. destruct (isolated_at set); reflexivity.
  - unfold union_set_errors_at, union_set_errors. rewrite isolated_plain, inlines_plain, typename_first_plain.
    destruct (typename_first_at (fst set)) as [ht others]. cbn [fst snd].
    assert (M : forall l : list linline, filter (fun c => match c with Some n => tmem n (un_members u) | None => false end) (map (fun i : linline => option_map fst (fst i)) l) =
      map (fun i : linline => option_map fst (fst i)) (filter (fun i : linline => match fst i with Some n => tmem (fst n) (un_members u) | None => false end) l)).
    { intros l. rewrite filter_map. f_equal. apply filter_ext. intros [[c|] sp]; reflexivity. }
    assert (M' : forall l : list linline, filter (fun c => negb (match c with Some n => tmem n (un_members u) | None => false end)) (map (fun i : linline => option_map fst (fst i)) l) =
      map (fun i : linline => option_map fst (fst i)) (filter (fun i : linline => negb (match fst i with Some n => tmem (fst n) (un_members u) | None => false end)) l)).
    { intros l. rewrite filter_map. f_equal. apply filter_ext. intros [[c|] sp]; reflexivity. }
    assert (R : map plain_tgerr ((if ht then [] else [LTNoTypename set]) ++ map (fun f => LTFieldOnUnion (fst f) (snd f)) others ++
        map (fun i => LTInlineNotMember i u) (filter (fun i : linline => negb (match fst i with Some n => tmem (fst n) (un_members u) | None => false end)) (Typegen.filter_map inline_of (fst set))) ++
        map (fun g => LTRepeatedCondition (fst g) set (snd g)) (duplicates (fun i : linline => match fst i with Some n => fst n | None => [] end)
          (filter (fun i : linline => match fst i with Some n => tmem (fst n) (un_members u) | None => false end) (Typegen.filter_map inline_of (fst set))))) =
      (if ht then [] else [TNoTypename]) ++ map (fun f => TFieldOnUnion (fst f) (snd f)) (map plain_pair others) ++
        map (fun c => TInlineNotMember c (un_name u)) (filter (fun c => negb (match c with Some n => tmem n (un_members u) | None => false end)) (map (fun i : linline => option_map fst (fst i)) (Typegen.filter_map inline_of (fst set)))) ++
        map (fun g => TRepeatedCondition (fst g) (length (snd g))) (duplicates (fun c : option name => match c with Some n => n | None => [] end)
          (filter (fun c => match c with Some n => tmem n (un_members u) | None => false end) (map (fun i : linline => option_map fst (fst i)) (Typegen.filter_map inline_of (fst set)))))).
    { rewrite M, M', duplicates_map, !map_app, !map_map. f_equal; [destruct ht; reflexivity|]. do 2 f_equal.
      assert (K : forall l : list linline, duplicates (fun i : linline => match fst i with Some n => fst n | None => [] end) l = duplicates (fun x : linline => match option_map fst (fst x) with Some n => n | None => [] end) l).
      { intros l. apply duplicates_ext. intros [[c|] sp]; reflexivity. }
      rewrite K. apply map_ext. intros [k xs]. cbn. rewrite map_length. reflexivity. }
    destruct (isolated_at set) as [|x|x]; cbn [plain_isolation map]; [exact R|reflexivity|f_equal; exact R].
  - unfold interface_set_errors_at, interface_set_errors. rewrite isolated_plain, inlines_plain, map_app, !map_map. f_equal. destruct (isolated_at set) as [|x|x]; try reflexivity. cbn [plain_isolation].
    rewrite cached_plain. destruct (cached_fragment_at d (fst (fst x))) as [f|]; [|reflexivity]. cbn [option_map plain_fragment fr_cond]. destruct (tmem _ _); reflexivity.
Qed.

Theorem typegen_errors_same S d : map plain_tgerr (typegen_errors_at d (visit_at S d)) = typegen_errors (plain_document d) (visit S (plain_document d)).
Proof.
  unfold typegen_errors_at, typegen_errors. rewrite <- visit_same, map_app, !map_flat_map, !flat_map_map. f_equal; apply flat_map_ext; intros e; destruct e; try reflexivity; cbn [plain_event].
  - apply set_errors_plain.
  - unfold clash_errors_at, clash_errors, operation_item_name. rewrite op_plain. cbn [op_name]. rewrite cached_plain.
    destruct (lop_name o) as [n|] eqn:E; cbn [option_map]; (destruct (cached_fragment_at d _); cbn; [rewrite E|]; reflexivity).
Qed.

(** * Every selection set is visited *)
Definition composite (t : tdef) : Prop := match t with DObject _ | DInterface _ | DUnion _ => True | _ => False end.
Section Visited.
  Variable S : schema.
  Variable d : ldocument.
  Hypothesis leafs : leaf_selection_errors S (visit S (plain_document d)) = [].
  Lemma set_visited r set t : at_type S d r set t -> incl (visit_selection_set_at S r t set) (visit_at S d) \/ fst set = [] /\ ~ composite t.
  Proof.
    assert (P : forall r set t s, incl (visit_selection_set_at S r t set) (visit_at S d) \/ fst set = [] /\ ~ composite t -> In s (fst set) -> incl (visit_selection_at S r t s) (visit_at S d)).
    { intros r0 set0 t0 s [H|(E & _)] Hs; [|rewrite E in Hs; destruct Hs]. intros e He. apply H. right. apply in_flat_map. exists s. auto. }
    induction 1 as [i o t Ho Ht|i f t Hf Ht|r set t al n args ds sub sp fd t' _ IH Hin Hfd Ht'|r set t ds sub sp _ IH Hin|r set t c ds sub sp t' _ IH Hin Ht'].
    - left. intros e He. apply in_or_app. left. apply in_concat. exists (visit_operation_at S i o). split; [apply mapi_from_In; exists i, o; auto|]. right. apply in_or_app. right. apply in_or_app. right.
      destruct (lop_type o) eqn:Eo; cbn [root_type op_root_name] in *; [rewrite Ht; exact He|destruct Ht as (m & -> & ->); exact He|destruct Ht as (m & -> & ->); exact He].
    - left. intros e He. apply in_or_app. right. apply in_concat. exists (visit_fragment_at S i f). split; [apply mapi_from_In; exists i, f; auto|]. apply in_or_app. left. rewrite Ht. exact He.
    - pose proof (P _ _ _ _ IH Hin) as K. cbn [visit_selection_at] in K. unfold has_field in Hfd. rewrite Hfd in K. destruct sub as [l spl]. destruct l as [|x l].
      + right. split; [reflexivity|]. assert (E : In (plain_event (LEField r al n args ds (Some ([], spl)) sp fd)) (visit S (plain_document d))) by (rewrite <- visit_same; apply in_map, K; left; reflexivity).
        assert (L : leaf_type S (fd_type fd) = true).
        { destruct (leaf_type S (fd_type fd)) eqn:L; [reflexivity|exfalso]. assert (B : In (NonLeafEmpty (fst n) fd) (leaf_selection_errors S (visit S (plain_document d)))); [|rewrite leafs in B; exact B].
          apply in_flat_map. eexists. split; [exact E|]. cbn. rewrite L. left. reflexivity. }
        unfold leaf_type in L. rewrite Ht' in L. destruct t'; cbn; try discriminate; tauto.
      + left. cbn [fst] in K. rewrite Ht', visit_go_at in K. intros e He. apply K. right. apply in_or_app. right. apply in_or_app. right. exact He.
    - left. pose proof (P _ _ _ _ IH Hin) as K. cbn [visit_selection_at] in K. rewrite visit_go_at in K. intros e He. apply K. apply in_or_app. right. apply in_or_app. left. exact He.
    - left. pose proof (P _ _ _ _ IH Hin) as K. cbn [visit_selection_at] in K. rewrite Ht', visit_go_at in K. intros e He. apply K. apply in_or_app. right. apply in_or_app. left. exact He.
  Qed.
  Lemma sets_visited set t : composite t -> (In (LESelSet set t) (visit_at S d) <-> exists r, at_type S d r set t).
  Proof.
    intros C. split; [exact (call S d _)|]. intros (r & H). destruct (set_visited r set t H) as [K|(_ & K)]; [|tauto]. apply K. left. reflexivity.
  Qed.
  Lemma ops_visited o : In (LEOp o) (visit_at S d) <-> In o (lops d).
  Proof.
    split; [exact (call S d (LEOp o))|]. intros H. apply In_nth_error in H as (i & H). apply in_or_app. left. apply in_concat. exists (visit_operation_at S i o). split; [apply mapi_from_In; exists i, o; auto|left; reflexivity].
  Qed.
End Visited.

(** * Selection sets *)
Lemma find_spread l : match Typegen.find_map spread_of l with
  | Some (n, sp) => exists before ds after, l = before ++ LSpread n ds sp :: after /\ Forall (fun s => ~ is_spread s) before
  | None => Forall (fun s => ~ is_spread s) l
  end.
Proof.
  induction l as [|s l IH]; cbn; [constructor|]. destruct s as [al n args ds sub sp|n ds sp|c ds sub sp]; cbn.
  - destruct (Typegen.find_map spread_of l) as [[m sm]|]; [|constructor; [cbn; tauto|exact IH]]. destruct IH as (b & x & a & -> & F). exists (LField al n args ds sub sp :: b), x, a. split; [reflexivity|constructor; [cbn; tauto|exact F]].
  - exists [], ds, l. split; [reflexivity|constructor].
  - destruct (Typegen.find_map spread_of l) as [[m sm]|]; [|constructor; [cbn; tauto|exact IH]]. destruct IH as (b & x & a & -> & F). exists (LInline c ds sub sp :: b), x, a. split; [reflexivity|constructor; [cbn; tauto|exact F]].
Qed.
Lemma first_spread before n ds sp after before' n' ds' sp' after' :
  before ++ LSpread n ds sp :: after = before' ++ LSpread n' ds' sp' :: after' -> Forall (fun s => ~ is_spread s) before -> Forall (fun s => ~ is_spread s) before' ->
  before = before' /\ n = n' /\ ds = ds' /\ sp = sp' /\ after = after'.
Proof.
  revert before'. induction before as [|x b IH]; intros [|y b'] E F F'; cbn in E; injection E as E1 E2.
  - subst. auto.
  - subst y. inversion_clear F'. cbn in *. tauto.
  - subst x. inversion_clear F. cbn in *. tauto.
  - subst y. inversion_clear F. inversion_clear F'. destruct (IH b' E2) as (-> & K); auto.
Qed.
Lemma not_isolated_iff set x : isolated_at set = IsoErrorAt x <->
  exists before ds after, fst set = before ++ LSpread (fst x) ds (snd x) :: after /\ Forall (fun s => ~ is_spread s) before /\ before ++ after <> [].
Proof.
  unfold isolated_at. pose proof (find_spread (fst set)) as F. destruct (Typegen.find_map spread_of (fst set)) as [[n sp]|].
  - destruct F as (b & ds & a & E & F). rewrite E. rewrite app_length. cbn [length]. destruct (Nat.eqb_spec (length b + Datatypes.S (length a)) 1) as [L|L]; cbn [negb].
    + split; [discriminate|]. intros (b' & ds' & a' & E' & F' & N). destruct (first_spread _ _ _ _ _ _ _ _ _ _ E' F F') as (<- & _ & _ & _ & <-). destruct b, a; cbn in L; try lia. cbn in N. congruence.
    + split.
      * intros [= <-]. exists b, ds, a. repeat split; auto. destruct b; [|discriminate]. destruct a; [cbn in L; lia|discriminate].
      * intros (b' & ds' & a' & E' & F' & N). destruct (first_spread _ _ _ _ _ _ _ _ _ _ E' F F') as (_ & E1 & _ & E2 & _). destruct x. cbn in *. congruence.
  - split; [discriminate|]. intros (b & ds & a & E & _). rewrite E in F. apply Forall_app in F as (_ & F). inversion_clear F. cbn in *. tauto.
Qed.
Lemma isolated_iff set x : isolated_at set = IsoSpreadAt x <-> exists ds, fst set = [LSpread (fst x) ds (snd x)].
Proof.
  unfold isolated_at. pose proof (find_spread (fst set)) as F. destruct (Typegen.find_map spread_of (fst set)) as [[n sp]|].
  - destruct F as (b & ds & a & E & F). rewrite E. rewrite app_length. cbn [length]. destruct (Nat.eqb_spec (length b + Datatypes.S (length a)) 1) as [L|L]; cbn [negb].
    + destruct b, a; cbn in L; try lia. cbn [app]. split; [intros [= <-]; eauto|]. intros (ds' & [= -> _ ->]). destruct x; reflexivity.
    + split; [discriminate|]. intros (ds' & E'). exfalso. apply L. apply (f_equal (@length _)) in E'. rewrite app_length in E'. cbn in E'. lia.
  - split; [discriminate|]. intros (ds & E). rewrite E in F. inversion_clear F. cbn in *. tauto.
Qed.
Lemma inlines_In l c sp : In (c, sp) (Typegen.filter_map inline_of l) <-> exists ds sub, In (LInline c ds sub sp) l.
Proof.
  rewrite filter_map_In. split.
  - intros ([| |c' ds sub sp'] & H & E); try discriminate. injection E as -> ->. eauto.
  - intros (ds & sub & H). exists (LInline c ds sub sp). auto.
Qed.
Lemma typename_iff l : fst (typename_first_at l) = true <-> begins_with_typename l.
Proof.
  unfold typename_first_at. cbn [fst]. rewrite existsb_exists. split.
  - intros ([i [al n]] & H & K). cbn [fst snd] in K. apply andb_true_iff in K as (K1 & K2). apply Nat.eqb_eq in K1. subst i. apply in_concat in H as (y & H & Hy). apply mapi_from_In in H as (j & s & Hj & ->).
    destruct s as [al' n' args ds sub sp| |]; [|destruct Hy|destruct Hy]. destruct Hy as [E|[]]. injection E as E1 -> ->. destruct j; [|discriminate]. destruct l as [|x l]; [discriminate|]. injection Hj as ->. cbn.
    destruct al; [discriminate|]. cbn in K2. apply teqb_eq in K2. exact K2.
  - destruct l as [|[[a|] n args ds sub sp| |] l]; cbn; try tauto. intros E. exists (0, (None, n)). split; [left; reflexivity|]. cbn. rewrite E. reflexivity.
Qed.
Lemma others_iff l al n : In (al, n) (snd (typename_first_at l)) <->
  exists before args ds sub sp after, l = before ++ LField al n args ds sub sp :: after /\ (before <> [] \/ ~ begins_with_typename l).
Proof.
  unfold typename_first_at. cbn [snd]. rewrite in_map_iff. split.
  - intros ([i x] & [= ->] & H). apply filter_In in H as (H & K). cbn [fst snd] in K. apply in_concat in H as (y & H & Hy). apply mapi_from_In in H as (j & s & Hj & ->).
    destruct s as [al' n' args ds sub sp| |]; [|destruct Hy|destruct Hy]. destruct Hy as [E|[]]. cbn in E. injection E as -> -> ->. pose proof Hj as Hj'. apply nth_error_split in Hj as (b & a & -> & Lb).
    exists b, args, ds, sub, sp, a. split; [reflexivity|]. destruct b as [|z b]; [|left; discriminate]. right. cbn in Lb. subst i. cbn. destruct al as [a0|]; [tauto|]. intros E. cbn in K. rewrite E in K. discriminate.
  - intros (b & args & ds & sub & sp & a & E & K). exists (length b, (al, n)). split; [reflexivity|]. apply filter_In. split.
    + apply in_concat. eexists. split; [apply mapi_from_In; exists (length b), (LField al n args ds sub sp); split; [rewrite E, nth_error_app2, Nat.sub_diag by lia; reflexivity|reflexivity]|left; reflexivity].
    + cbn [fst snd]. destruct b as [|z b]; [|reflexivity]. destruct K as [K|K]; [congruence|]. rewrite E in K. cbn [app begins_with_typename] in K. cbn [length Nat.eqb andb]. destruct al; [reflexivity|]. cbn [option_map plain_typename]. destruct (teqb (fst n) (tx "__typename")) eqn:T; [|reflexivity]. apply teqb_eq in T. tauto.
Qed.
Lemma repeated_key u l c xs : In (c, xs) (duplicates (fun i : linline => match fst i with Some n => fst n | None => [] end)
    (filter (fun i : linline => match fst i with Some n => tmem (fst n) (un_members u) | None => false end) (Typegen.filter_map inline_of l))) <->
  In c (un_members u) /\ 2 <= length (fragments_on c l) /\
  xs = with_key (fun i : linline => match fst i with Some n => fst n | None => [] end) c
    (filter (fun i : linline => match fst i with Some n => tmem (fst n) (un_members u) | None => false end) (Typegen.filter_map inline_of l)).
Proof.
  assert (K : In c (un_members u) -> map snd (with_key (fun i : linline => match fst i with Some n => fst n | None => [] end) c
    (filter (fun i : linline => match fst i with Some n => tmem (fst n) (un_members u) | None => false end) (Typegen.filter_map inline_of l))) = fragments_on c l).
  { intros Hc. apply tmem_In in Hc. unfold with_key. induction l as [|s l IH]; [reflexivity|]. destruct s as [| |[n|] ds sub sp]; cbn; try exact IH.
    destruct (teqb (fst n) c) eqn:E.
    - apply teqb_eq in E. rewrite E, Hc. cbn. rewrite E, teqb_refl. cbn. f_equal. exact IH.
    - destruct (tmem (fst n) (un_members u)); cbn; [rewrite E|]; exact IH. }
  rewrite duplicates_In. split.
  - intros (-> & L). assert (Hc : In c (un_members u)).
    { destruct (with_key _ c _) as [|x xs] eqn:E; [cbn in L; lia|]. assert (Hx : In x (x :: xs)) by (left; reflexivity). rewrite <- E in Hx. apply filter_In in Hx as (Hx & Ex). apply filter_In in Hx as (_ & Hx).
      destruct (fst x) as [n|]; [|discriminate]. apply teqb_eq in Ex. subst c. apply tmem_In. exact Hx. }
    split; [exact Hc|]. split; [|reflexivity]. rewrite <- (K Hc), map_length. exact L.
  - intros (Hc & L & ->). split; [reflexivity|]. rewrite <- (K Hc), map_length in L. exact L.
Qed.
Lemma repeated_spans u l c : In c (un_members u) -> map snd (with_key (fun i : linline => match fst i with Some n => fst n | None => [] end) c
    (filter (fun i : linline => match fst i with Some n => tmem (fst n) (un_members u) | None => false end) (Typegen.filter_map inline_of l))) = fragments_on c l.
Proof.
  intros Hc. apply tmem_In in Hc. unfold with_key. induction l as [|s l IH]; [reflexivity|]. destruct s as [| |[n|] ds sub sp]; cbn; try exact IH.
  destruct (teqb (fst n) c) eqn:E.
  - apply teqb_eq in E. rewrite E, Hc. cbn. rewrite E, teqb_refl. cbn. f_equal. exact IH.
  - destruct (tmem (fst n) (un_members u)); cbn; [rewrite E|]; exact IH.
Qed.

(** * The errors *)
Section Exact.
  Variable S : schema.
  Variable d : ldocument.
  Hypothesis leafs : leaf_selection_errors S (visit S (plain_document d)) = [].
  Hypothesis unique : fragment_name_errors (visit S (plain_document d)) = [].
  Hypothesis targets : spread_target_errors (plain_document d) (visit S (plain_document d)) = [].
  Lemma fragments_unique : NoDup (map (fun f => fst (lf_name f)) (lfrags d)).
  Proof.
    apply duplicates_nil. unfold fragment_name_errors in unique. rewrite visit_proj_frags, frags_plain, duplicates_map in unique. apply map_eq_nil in unique. exact unique.
  Qed.
  Lemma cached_iff n f : cached_fragment_at d n = Some f <-> In f (lfrags d) /\ fst (lf_name f) = n.
  Proof.
    pose proof fragments_unique as U. unfold cached_fragment_at. rewrite assoc_last_NoDup by (rewrite map_map; exact U). split.
    - intros H. apply assoc_In in H. apply in_map_iff in H as (g & [= <- <-] & H). auto.
    - intros (H & <-). apply assoc_NoDup; [rewrite map_map; exact U|]. apply in_map_iff. exists f. auto.
  Qed.
  Lemma target_defined r set t n ds sp : at_type S d r set t -> In (LSpread n ds sp) (fst set) -> exists f, In f (lfrags d) /\ fst (lf_name f) = fst n.
  Proof.
    intros H Hin. destruct (set_visited S d leafs r set t H) as [K|(E & _)]; [|rewrite E in Hin; destruct Hin].
    assert (E : In (LESpread r n ds sp t) (visit_at S d)).
    { apply K. right. apply in_flat_map. exists (LSpread n ds sp). split; [exact Hin|]. cbn [visit_selection_at]. apply in_or_app. right. left. reflexivity. }
    assert (P : In (plain_event (LESpread r n ds sp t)) (visit S (plain_document d))) by (rewrite <- visit_same; apply in_map; exact E).
    destruct (tmem (fst n) (map fr_name (doc_frags (plain_document d)))) eqn:T.
    - apply tmem_In in T. rewrite frags_plain, map_map in T. apply in_map_iff in T as (f & Ef & Hf). exists f. auto.
    - exfalso. assert (B : In (fst n) (spread_target_errors (plain_document d) (visit S (plain_document d)))); [|rewrite targets in B; exact B].
      apply in_flat_map. eexists. split; [exact P|]. cbn [plain_event]. rewrite T. left. reflexivity.
  Qed.
  Notation errors := (typegen_errors_at d (visit_at S d)).
  Lemma from_set set t e : composite t -> (exists r, at_type S d r set t) -> In e (set_errors_at d set t) -> In e errors.
  Proof. intros C H K. apply in_or_app. left. apply in_flat_map. exists (LESelSet set t). split; [|exact K]. apply (sets_visited S d leafs set t C). exact H. Qed.
  Theorem never_panics : ~ In LTPanic errors.
  Proof.
    intros H. apply in_app_or in H as [H|H]; apply in_flat_map in H as (e & He & H); destruct e as [|o|set t| | | | | | | | | | | |]; try destruct H.
    - apply call in He. destruct He as (r & He).
      assert (N : forall A (f : A -> ltgerr) l, (forall a, f a <> LTPanic) -> ~ In LTPanic (map f l)) by (intros A f l Hf Hin; apply in_map_iff in Hin as (a & E & _); exact (Hf a E)).
      destruct t as [b|s|o|io|en|u|i]; cbn [set_errors_at] in H; try destruct H.
      + unfold object_set_errors_at in H. apply in_app_or in H as [H|H]; [destruct (isolated_at set); [destruct H|destruct H|destruct H as [H|[]]; discriminate]|]. revert H. apply N. discriminate.
      + unfold union_set_errors_at in H. destruct (typename_first_at (fst set)) as [ht others]. 
        match type of H with In _ (match isolated_at set with IsoNoneAt => ?rest | _ => _ end) => assert (R : ~ In LTPanic rest) end.
        { intros K. apply in_app_or in K as [K|K]; [destruct ht; [destruct K|destruct K as [K|[]]; discriminate]|]. apply in_app_or in K as [K|K]; [revert K; apply N; discriminate|].
          apply in_app_or in K as [K|K]; revert K; apply N; discriminate. }
        destruct (isolated_at set); [tauto|destruct H|destruct H as [H|H]; [discriminate|tauto]].
      + unfold interface_set_errors_at in H. apply in_app_or in H as [H|H]; [|revert H; apply N; discriminate].
        destruct (isolated_at set) as [|x|x] eqn:I; [destruct H| |destruct H as [H|[]]; discriminate]. apply isolated_iff in I as (ds & I).
        destruct (target_defined r set _ (fst x) ds (snd x) He ltac:(rewrite I; left; reflexivity)) as (f & Hf & Nf). rewrite (proj2 (cached_iff _ f) (conj Hf Nf)) in H. destruct (tmem _ _); [destruct H|destruct H as [H|[]]; discriminate].
    - unfold clash_errors_at in H. destruct (cached_fragment_at d _); [destruct H as [H|[]]; discriminate|destruct H].
  Qed.
  Theorem errors_iff er : In er (flat_map typegen_error errors) <-> unsupported S d er.
  Proof.
    rewrite in_flat_map. split.
    - intros (e & H & Her). apply in_app_or in H as [H|H]; apply in_flat_map in H as (ev & He & H); destruct ev as [|o|set t| | | | | | | | | | | |]; try destruct H.
      + apply call in He. cbn [call_ok] in He.
        assert (Iso : forall x, composite t -> isolated_at set = IsoErrorAt x -> e = LTSpreadNotIsolated set x -> unsupported S d er).
        { intros x C I ->. apply not_isolated_iff in I as (b & ds & a & E1 & E2 & E3). destruct Her as [<-|[]]. exact (un_not_alone S d set t b (fst x) ds (snd x) a He C E1 E2 E3). }
        destruct t as [b|s|o|io|en|u|i]; cbn [set_errors_at] in H; try destruct H.
        * unfold object_set_errors_at in H. apply in_app_or in H as [H|H].
          -- destruct (isolated_at set) as [|x|x] eqn:I; [destruct H|destruct H|destruct H as [<-|[]]]. exact (Iso x Logic.I eq_refl eq_refl).
          -- apply in_map_iff in H as ([c sp] & <- & H). apply inlines_In in H as (ds & sub & H). destruct Her as [<-|[]]. exact (un_object S d set o c ds sub sp He H).
        * unfold union_set_errors_at in H. pose proof (typename_iff (fst set)) as T1. pose proof (others_iff (fst set)) as T2. destruct (typename_first_at (fst set)) as [ht others]. cbn [fst snd] in T1, T2.
          match type of H with In _ (match isolated_at set with IsoNoneAt => ?rest | _ => _ end) => assert (R : (forall n ds sp, fst set <> [LSpread n ds sp]) -> In e rest -> unsupported S d er) end.
          { intros Q K. apply in_app_or in K as [K|K].
            - destruct ht; [destruct K|destruct K as [<-|[]]]. destruct Her as [<-|[]]. apply (un_typename S d set u He Q). intros B. apply T1 in B. discriminate.
            - apply in_app_or in K as [K|K]; [|apply in_app_or in K as [K|K]].
              + apply in_map_iff in K as ([al n] & <- & K). apply T2 in K as (b & args & ds & sub & sp & a & E1 & E2). destruct Her as [<-|[]]. exact (un_field S d set u b al n args ds sub sp a He E1 E2).
              + apply in_map_iff in K as ([c sp] & <- & K). apply filter_In in K as (K & M). apply inlines_In in K as (ds & sub & K). destruct Her as [<-|[]]. cbn [fst snd] in *. destruct c as [c|].
                * apply (un_member_on S d set u c ds sub sp He K). intros B. apply tmem_In in B. rewrite B in M. discriminate.
                * exact (un_member S d set u ds sub sp He K).
              + apply in_map_iff in K as ([c xs] & <- & K). apply repeated_key in K as (Hc & L & ->). destruct Her as [<-|[]]. cbn [fst snd].
                pose proof (un_repeated S d set u c He Hc L) as Z. rewrite <- (repeated_spans u (fst set) c Hc), map_map in Z. exact Z. }
          destruct (isolated_at set) as [|x|x] eqn:I; [|destruct H|destruct H as [<-|H]].
          -- apply R; [|exact H]. intros n ds sp E. assert (Z : isolated_at set = IsoSpreadAt (n, sp)) by (apply isolated_iff; exists ds; exact E). congruence.
          -- exact (Iso x Logic.I eq_refl eq_refl).
          -- apply R; [|exact H]. intros n ds sp E. assert (Z : isolated_at set = IsoSpreadAt (n, sp)) by (apply isolated_iff; exists ds; exact E). congruence.
        * unfold interface_set_errors_at in H. apply in_app_or in H as [H|H].
          -- destruct (isolated_at set) as [|x|x] eqn:I; [destruct H| |destruct H as [<-|[]]; exact (Iso x Logic.I eq_refl eq_refl)]. apply isolated_iff in I as (ds & I).
             destruct (cached_fragment_at d (fst (fst x))) as [f|] eqn:F; [|destruct H as [<-|[]]; destruct Her]. apply cached_iff in F as (F1 & F2).
             destruct (tmem (fst (lf_cond f)) (if_ifaces i ++ [if_name i])) eqn:M; [destruct H|destruct H as [<-|[]]]. destruct Her as [<-|[]].
             apply (un_target S d set i (fst x) ds (snd x) f He I F1 F2); intros B; assert (Z : tmem (fst (lf_cond f)) (if_ifaces i ++ [if_name i]) = true) by (apply tmem_In, in_or_app; cbn; auto); congruence.
          -- apply in_map_iff in H as ([c sp] & <- & H). apply inlines_In in H as (ds & sub & H). destruct Her as [<-|[]]. exact (un_interface S d set i c ds sub sp He H).
      + apply call in He. cbn [call_ok] in He. unfold clash_errors_at in H. change (match lop_name o with Some n => fst n | None => tx "Root" end) with (item_name o) in H.
        destruct (cached_fragment_at d (item_name o)) as [f|] eqn:F; [|destruct H]. destruct H as [<-|[]]. destruct Her as [<-|[]]. apply cached_iff in F as (F1 & F2). rewrite F2. exact (un_clash S d o f He F1 F2).
    - assert (Rest : forall set u e, (exists r, at_type S d r set (DUnion u)) -> (forall n ds sp, fst set <> [LSpread n ds sp]) ->
        (fst (typename_first_at (fst set)) = false /\ e = LTNoTypename set \/ (exists f, In f (snd (typename_first_at (fst set))) /\ e = LTFieldOnUnion (fst f) (snd f)) \/
         (exists i, In i (Typegen.filter_map inline_of (fst set)) /\ match fst i with Some n => tmem (fst n) (un_members u) | None => false end = false /\ e = LTInlineNotMember i u) \/
         (exists g, In g (duplicates (fun i : linline => match fst i with Some n => fst n | None => [] end)
           (filter (fun i : linline => match fst i with Some n => tmem (fst n) (un_members u) | None => false end) (Typegen.filter_map inline_of (fst set)))) /\ e = LTRepeatedCondition (fst g) set (snd g))) -> In e errors).
      { intros set u e Hs Q K. apply (from_set set (DUnion u) e Logic.I Hs). cbn [set_errors_at]. unfold union_set_errors_at. destruct (typename_first_at (fst set)) as [ht others]. cbn [fst snd] in K.
        match goal with |- In _ (match isolated_at set with IsoNoneAt => ?rest | _ => _ end) => assert (R : In e rest) end.
        { destruct K as [(-> & ->)|[(f & K & ->)|[(i & K & M & ->)|(g & K & ->)]]].
          - apply in_or_app. left. left. reflexivity.
          - apply in_or_app. right. apply in_or_app. left. apply in_map_iff. exists f. auto.
          - apply in_or_app. right. apply in_or_app. right. apply in_or_app. left. apply in_map_iff. exists i. split; [reflexivity|]. apply filter_In. rewrite M. auto.
          - apply in_or_app. right. apply in_or_app. right. apply in_or_app. right. apply in_map_iff. exists g. auto. }
        destruct (isolated_at set) as [|x|x] eqn:I; [exact R| |right; exact R]. apply isolated_iff in I as (ds & I). destruct (Q _ _ _ I). }
      assert (Alone : forall (set : lset) (s : lselection), In s (fst set) -> ~ is_spread s -> forall n ds sp, fst set <> [LSpread n ds sp]).
      { intros set s Hs N n ds sp E. rewrite E in Hs. destruct Hs as [<-|[]]. apply N. exact Logic.I. }
      intros H. destruct H as [set t b n ds sp a Hs C E1 E2 E3|set o c ds sub sp Hs Hin|set i c ds sub sp Hs Hin|set i n ds sp f Hs E F1 F2 F3 F4|set u Hs Q B|set u b al n args ds sub sp a Hs E B|set u c ds sub sp Hs Hin M|set u ds sub sp Hs Hin|set u c Hs Hc L|o f Ho Hf E].
      + exists (LTSpreadNotIsolated set (n, sp)). split; [|left; reflexivity]. apply (from_set set t _ C Hs). assert (I : isolated_at set = IsoErrorAt (n, sp)) by (apply not_isolated_iff; exists b, ds, a; auto).
        destruct t as [bb|s|o|io|en|u|i]; try destruct C; cbn [set_errors_at].
        * unfold object_set_errors_at. rewrite I. left. reflexivity.
        * unfold union_set_errors_at. rewrite I. destruct (typename_first_at (fst set)). left. reflexivity.
        * unfold interface_set_errors_at. rewrite I. left. reflexivity.
      + exists (LTInlineOnObject (c, sp)). split; [|left; reflexivity]. apply (from_set set (DObject o) _ Logic.I Hs). apply in_or_app. right. apply in_map. apply inlines_In. eauto.
      + exists (LTInlineOnInterface (c, sp)). split; [|left; reflexivity]. apply (from_set set (DInterface i) _ Logic.I Hs). apply in_or_app. right. apply in_map. apply inlines_In. eauto.
      + exists (LTSpreadInvalidTarget (n, sp)). split; [|left; reflexivity]. apply (from_set set (DInterface i) _ Logic.I Hs). apply in_or_app. left.
        rewrite (proj2 (isolated_iff set (n, sp)) ltac:(exists ds; exact E)). cbn [fst]. rewrite (proj2 (cached_iff _ f) (conj F1 F2)).
        destruct (tmem (fst (lf_cond f)) (if_ifaces i ++ [if_name i])) eqn:M; [|left; reflexivity]. apply tmem_In in M. apply in_app_or in M as [M|[M|[]]]; [tauto|congruence].
      + exists (LTNoTypename set). split; [|left; reflexivity]. apply (Rest set u _ Hs Q). left. split; [|reflexivity]. apply not_true_is_false. intros T. apply B, typename_iff, T.
      + exists (LTFieldOnUnion al n). split; [|left; reflexivity]. apply (Rest set u _ Hs).
        * apply (Alone set (LField al n args ds sub sp)); [rewrite E; apply in_or_app; right; left; reflexivity|cbn; tauto].
        * right. left. exists (al, n). split; [|reflexivity]. apply others_iff. exists b, args, ds, sub, sp, a. auto.
      + exists (LTInlineNotMember (Some c, sp) u). split; [|left; reflexivity]. apply (Rest set u _ Hs); [apply (Alone set _ Hin); cbn; tauto|]. right. right. left. exists (Some c, sp). split; [apply inlines_In; eauto|]. split; [|reflexivity].
        cbn [fst]. destruct (tmem (fst c) (un_members u)) eqn:T; [|reflexivity]. apply tmem_In in T. tauto.
      + exists (LTInlineNotMember (None, sp) u). split; [|left; reflexivity]. apply (Rest set u _ Hs); [apply (Alone set _ Hin); cbn; tauto|]. right. right. left. exists (None, sp). split; [apply inlines_In; eauto|]. auto.
      + eexists (LTRepeatedCondition c set _). split.
        * apply (Rest set u _ Hs).
          -- intros n ds sp E. rewrite E in L. cbn in L. lia.
          -- right. right. right. eexists (c, _). split; [|reflexivity]. apply repeated_key. split; [exact Hc|]. split; [exact L|reflexivity].
        * left. cbn [typegen_error]. rewrite <- (repeated_spans u (fst set) c Hc), map_map. reflexivity.
      + exists (LTNameClash o f). split; [|left; cbn; rewrite E; reflexivity]. apply in_or_app. right. apply in_flat_map. exists (LEOp o). split; [apply ops_visited; exact Ho|].
        unfold clash_errors_at. change (match lop_name o with Some n => fst n | None => tx "Root" end) with (item_name o). rewrite (proj2 (cached_iff _ f) (conj Hf E)). left. reflexivity.
  Qed.
End Exact.

(** * What is marked *)
Section Marked.
  Variable S : schema.
  Variable d : ldocument.
  Notation ns := (document_nodes d).
  Lemma at_type_set r set t : at_type S d r set t -> In (NSet set) ns.
  Proof.
    induction 1 as [i o t Ho _|i f t Hf _|r sels t al n args ds sub sp fd t' H _ Hin _ _|r sels t ds sub sp H _ Hin|r sels t c ds sub sp t' H _ Hin _].
    - apply (ops_nodes d o (nth_error_In _ _ Ho)), op_set_nodes. left. reflexivity.
    - apply (frags_nodes d f (nth_error_In _ _ Hf)). right. right. right. apply in_or_app. right. left. reflexivity.
    - apply (selected_nodes S d r t (LField al n args ds (Some sub) sp)); [exists sels; auto|]. right. apply in_or_app. right. right. apply in_or_app. right. apply in_or_app. right. left. reflexivity.
    - apply (selected_nodes S d r t (LInline None ds sub sp)); [exists sels; auto|]. right. apply in_or_app. right. apply in_or_app. right. left. reflexivity.
    - apply (selected_nodes S d r t (LInline (Some c) ds sub sp)); [exists sels; auto|]. right. apply in_or_app. right. apply in_or_app. right. left. reflexivity.
  Qed.
  Lemma in_set r set t s : at_type S d r set t -> In s (fst set) -> In (NSelection s) ns.
  Proof. intros H Hs. apply (selected_nodes S d r t s); [exists set; auto|]. destruct s; left; reflexivity. Qed.
  Notation marks := (fun a : note => of_part ns (snd a)).
  Lemma set_mark r set t : at_type S d r set t -> of_part ns (snd set).
  Proof. intros H. exists (NSet set). split; [exact (at_type_set r set t H)|reflexivity]. Qed.
  Lemma selection_mark r set t s : at_type S d r set t -> In s (fst set) -> of_part ns (node_span (NSelection s)).
  Proof. intros H Hs. exists (NSelection s). split; [exact (in_set r set t s H Hs)|reflexivity]. Qed.
  Theorem unsupported_marks er : unsupported S d er -> Forall marks (annotations er).
  Proof.
    intros H. destruct H as [set t b n ds sp a (r & Hs) C E1 E2 E3|set o c ds sub sp (r & Hs) Hin|set i c ds sub sp (r & Hs) Hin|set i n ds sp f (r & Hs) E F1 F2 F3 F4|set u (r & Hs) Q B|set u b al n args ds sub sp a (r & Hs) E B|set u c ds sub sp (r & Hs) Hin M|set u ds sub sp (r & Hs) Hin|set u c (r & Hs) Hc L|o f Ho Hf E].
    - constructor; [exact (set_mark r set t Hs)|]. constructor; [|constructor]. apply (selection_mark r set t (LSpread n ds sp) Hs). rewrite E1. apply in_or_app. right. left. reflexivity.
    - constructor; [|constructor]. exact (selection_mark r set _ _ Hs Hin).
    - constructor; [|constructor]. exact (selection_mark r set _ _ Hs Hin).
    - constructor; [|constructor]. apply (selection_mark r set _ (LSpread n ds sp) Hs). rewrite E. left. reflexivity.
    - constructor; [|constructor]. exact (set_mark r set _ Hs).
    - constructor; [|constructor]. exists (NName n). split; [|reflexivity]. apply (selected_nodes S d r (DUnion u) (LField al n args ds sub sp)).
      + exists set. split; [exact Hs|]. rewrite E. apply in_or_app. right. left. reflexivity.
      + cbn [selection_nodes]. right. apply in_or_app. right. left. reflexivity.
    - constructor; [|constructor]. exact (selection_mark r set _ _ Hs Hin).
    - constructor; [|constructor]. exact (selection_mark r set _ _ Hs Hin).
    - constructor; [exact (set_mark r set _ Hs)|]. cbn [er_secondary]. apply Forall_forall. intros x Hx. apply in_map_iff in Hx as (sp & <- & Hx). apply in_flat_map in Hx as (s & Hin & Hx).
      destruct s as [| |[n|] ds sub sp']; try destruct Hx. destruct (teqb (fst n) c); [|destruct Hx]. destruct Hx as [<-|[]]. exact (selection_mark r set _ _ Hs Hin).
    - constructor; [exists (NFragment f); split; [apply (frags_nodes d f Hf); left; reflexivity|reflexivity]|]. constructor; [|constructor]. exists (NOperation o). split; [|reflexivity]. apply (ops_nodes d o Ho). destruct o; left; reflexivity.
  Qed.
End Marked.
