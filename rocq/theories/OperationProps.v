(** Property theorems on the analysis of operations (C34, C36, C37, C38, C39, C48, C49). *)
From Verif Require Import Base Ast Graph Maps Doc DocSpec DocRules DocRulesSpec DocVariablesSpec FragmentsSpec FragmentCyclesProofs
  CoercionTypes Coercion CoercionSpec CoercionProps Operation OperationSpec OperationProofs OperationValuesProofs Examples.
Local Open Scope string_scope.
Local Open Scope list_scope.

(** * Examples used below *)
Definition sk (c : value) : directive := {| dir_name := tx "skip"; dir_args := [(tx "if", c)] |}.
Definition inc (c : value) : directive := {| dir_name := tx "include"; dir_args := [(tx "if", c)] |}.
(** query Q($s: Boolean!, $i: Boolean = false) {
      dog(id: 1) @skip(if: $s) { name friend { ...F } }
      pet { ...F @include(if: $i) ... @skip(if: false) { name } }
    }
    fragment F on Pet { ... on Dog { friend { ...G } } }
    fragment G on Pet { name ...F }     — F and G are cyclic *)
Definition ex_analysis_op : operation :=
  op_query (Some (tx "Q")) [mk_var "s" (ty_req "Boolean") None; mk_var "i" (ty "Boolean") (Some (VBool false))]
    [SField None (tx "dog") [(tx "id", VInt 1)] [sk (VVar (tx "s"))] [fld "name" [] []; fld "friend" [] [spr "F"]];
     fld "pet" [] [SSpread (tx "F") [inc (VVar (tx "i"))]; SInline None [sk (VBool false)] [fld "name" [] []]]].
Definition ex_analysis_doc : document :=
  {| doc_ops := [ex_analysis_op];
     doc_frags := [mk_frag "F" "Pet" [SInline (Some (tx "Dog")) [] [fld "friend" [] [spr "G"]]];
                   mk_frag "G" "Pet" [fld "name" [] []; spr "F"]] |}.
Definition ex_skip : list (name * value) := [(tx "s", VBool true)].
Definition ex_keep : list (name * value) := [(tx "s", VBool false)].

(** the selections written in a document, to check [unique_conditions] on examples *)
Fixpoint written (s : selection) : list selection :=
  s :: match s with
       | SField _ _ _ _ sub | SInline _ _ sub => (fix go l := match l with [] => [] | x :: l' => written x ++ go l' end) sub
       | SSpread _ _ => []
       end.
Definition all_written (sels : list selection) : list selection := flat_map written sels.
Lemma written_go sub : (fix go l := match l with [] => [] | x :: l' => written x ++ go l' end) sub = all_written sub.
Proof. reflexivity. Qed.
Lemma written_occurs s sels : occurs s sels -> In s (all_written sels).
Proof.
  unfold all_written. induction 1 as [sels H|sels al n args ds sub H _ IH|sels c ds sub H _ IH]; apply in_flat_map.
  - exists s. split; auto. destruct s; left; auto.
  - eexists; split; [exact H|]. cbn. right. rewrite written_go. auto.
  - eexists; split; [exact H|]. cbn. right. rewrite written_go. auto.
Qed.
Lemma occurs_deep s0 s sels sub : occurs s sub -> occurs s0 sels ->
  (match s0 with SField _ _ _ _ sub' | SInline _ _ sub' => sub' = sub | _ => False end) -> occurs s sels.
Proof.
  intros H1 H2. revert s sub H1. induction H2 as [sels H|sels al n args ds sub' H _ IH|sels c ds sub' H _ IH]; intros s sub H1 E.
  - destruct s0; subst; try tauto; [eapply occ_field; eauto|eapply occ_inline; eauto].
  - eapply occ_field; eauto.
  - eapply occ_inline; eauto.
Qed.
Lemma reaches_occurs S d o p t sels : reaches S d o p t sels -> forall s, In s sels ->
  occurs s (op_sel o) \/ exists f, In f (doc_frags d) /\ occurs s (fr_sel f).
Proof.
  induction 1 as [t Hr|p t sels al n args ds sub fd t1 H IH Hin Hf Hne Ht|p t sels ds sub H IH Hin
      |p t sels c ds sub t1 H IH Hin Ht|p t sels n ds f t1 H IH Hin Hd Ht]; intros s Hs.
  - left. constructor; auto.
  - destruct (IH _ Hin) as [K|(f & Hf' & K)]; [left|right; exists f; split; auto]; (eapply occurs_deep; [constructor; exact Hs|exact K|reflexivity]).
  - destruct (IH _ Hin) as [K|(f & Hf' & K)]; [left|right; exists f; split; auto]; (eapply occurs_deep; [constructor; exact Hs|exact K|reflexivity]).
  - destruct (IH _ Hin) as [K|(f & Hf' & K)]; [left|right; exists f; split; auto]; (eapply occurs_deep; [constructor; exact Hs|exact K|reflexivity]).
  - right. exists f. split; [|constructor; auto]. destruct Hd as (b & a & E & _). rewrite E. apply in_or_app; right; left; auto.
Qed.
Definition nodup_text (l : list text) : bool := (fix go l := match l with [] => true | x :: l' => negb (tmem x l') && go l' end) l.
Lemma nodup_text_NoDup l : nodup_text l = true -> NoDup l.
Proof.
  unfold nodup_text. induction l as [|x l IH]; [constructor|]. intros H. apply andb_true_iff in H as (A & B). constructor; auto.
  apply negb_true_iff, tmem_false in A. auto.
Qed.
Definition unique_check (d : document) (o : operation) (vals : list (name * value)) : bool :=
  nodup_text (map vd_name (op_vars o)) && nodup_text (map fst vals) &&
  forallb (fun s => nodup_text (map dir_name (sel_dirs s)) && forallb (fun x => nodup_text (map fst (dir_args x))) (sel_dirs s))
    (all_written (op_sel o) ++ flat_map (fun f => all_written (fr_sel f)) (doc_frags d)).
Lemma once_all (ds : list directive) : NoDup (map dir_name ds) -> (forall x, In x ds -> NoDup (map fst (dir_args x))) -> conditions_once ds.
Proof.
  intros Hn Ha n _. split; [|auto]. intros i j x y Hi Hj Ex Ey. rewrite NoDup_nth_error in Hn. apply Hn.
  - rewrite map_length. apply nth_error_Some. congruence.
  - rewrite (map_nth_error dir_name _ _ Hi), (map_nth_error dir_name _ _ Hj). congruence.
Qed.
Lemma unique_check_ok S d o vals : unique_check d o vals = true -> unique_conditions S d o vals.
Proof.
  unfold unique_check. intros H. apply andb_true_iff in H as (H & C). apply andb_true_iff in H as (A & B).
  split; [apply nodup_text_NoDup; auto|]. split; [apply nodup_text_NoDup; auto|].
  intros p t s (sels & Hr & Hin). rewrite forallb_forall in C.
  assert (Hw : In s (all_written (op_sel o) ++ flat_map (fun f => all_written (fr_sel f)) (doc_frags d))).
  { apply in_or_app. destruct (reaches_occurs _ _ _ _ _ _ Hr _ Hin) as [K|(f & Hf & K)]; [left|right; apply in_flat_map; exists f; split; auto];
      apply written_occurs; auto. }
  apply C in Hw. apply andb_true_iff in Hw as (D & E). apply once_all; [apply nodup_text_NoDup; auto|].
  rewrite forallb_forall in E. intros x Hx. apply nodup_text_NoDup; auto.
Qed.
Example ex_unique : unique_conditions ex_schema ex_analysis_doc ex_analysis_op ex_skip /\ unique_conditions ex_schema ex_analysis_doc ex_analysis_op ex_keep.
Proof. split; apply unique_check_ok; vm_compute; reflexivity. Qed.

(** * C38 *)
(** With a name: the analysis runs on an operation of that name, and fails exactly if there is none. Without: it runs
    exactly if there is one operation, on that operation. *)
Theorem operation_resolution :
  forall (S : schema) (d : document) (vals : list (name * value)),
    (forall n evs, analyze S d (Some n) vals = inl evs ->
       exists o, In o (doc_ops d) /\ op_name o = Some n /\ evs = ovisit_operation S d o vals) /\
    (forall n, (exists e, analyze S d (Some n) vals = inr e) <-> forall o, In o (doc_ops d) -> op_name o <> Some n) /\
    (forall o, doc_ops d = [o] -> analyze S d None vals = inl (ovisit_operation S d o vals)) /\
    ((exists e, analyze S d None vals = inr e) <-> length (doc_ops d) <> 1).
Proof.
  intros S d vals. unfold analyze, resolve_operation. split; [|split; [|split]].
  - intros n evs H. destruct (find _ (doc_ops d)) as [o|] eqn:E; [|discriminate]. injection H as <-.
    apply find_some in E as (Hin & E). exists o. split; auto. split; auto. destruct (op_name o); [|discriminate]. apply teqb_eq in E as ->. auto.
  - intros n. split.
    + intros (e & H) o Ho En. destruct (find _ (doc_ops d)) as [o'|] eqn:E; [discriminate|].
      apply (find_none _ _ E) in Ho. rewrite En, teqb_refl in Ho. discriminate.
    + intros H. destruct (find _ (doc_ops d)) as [o|] eqn:E; [|eauto]. exfalso. apply find_some in E as (Hin & E).
      apply (H _ Hin). destruct (op_name o); [|discriminate]. apply teqb_eq in E as ->. auto.
  - intros o ->. reflexivity.
  - destruct (doc_ops d) as [|o [|o' l]]; cbn; split; try (intros (e & H)); eauto; try discriminate. congruence.
Qed.
Print Assumptions operation_resolution.
(** If names are unique the operation is determined by its name. *)
Theorem named_operation_is_the_one :
  forall (S : schema) (d : document) (vals : list (name * value)) o n,
    NoDup (map op_name (doc_ops d)) -> In o (doc_ops d) -> op_name o = Some n ->
    analyze S d (Some n) vals = inl (ovisit_operation S d o vals).
Proof.
  intros S d vals o n Hnd Hin En. destruct (analyze S d (Some n) vals) as [evs|e] eqn:E.
  - apply operation_resolution in E as (o' & Hin' & En' & ->). f_equal. f_equal.
    assert (G : forall l, NoDup (map op_name l) -> In o l -> In o' l -> o' = o).
    { induction l as [|x l IH]; [intros _ []|]. intros Hd Ho Ho'. inversion Hd; subst.
      destruct Ho as [->|Ho], Ho' as [->|Ho']; auto; exfalso; apply H1; [rewrite En, <- En'|rewrite En', <- En]; apply in_map; auto. }
    eapply G; eauto.
  - exfalso. eapply (proj1 (proj1 (proj2 (operation_resolution S d vals)) n)); eauto.
Qed.
Print Assumptions named_operation_is_the_one.
Example operation_resolution_ex :
  let a := op_query (Some (tx "A")) [] [fld "name" [] []] in let b := op_query (Some (tx "B")) [] [fld "fish" [] []] in
  let d := {| doc_ops := [a; b]; doc_frags := [] |} in
  analyze ex_schema d (Some (tx "B")) [] = inl (ovisit_operation ex_schema d b []) /\
  analyze ex_schema d (Some (tx "C")) [] = inr (NoOperationWithName (tx "C")) /\
  analyze ex_schema d None [] = inr AnonymousNotEligible.
Proof. vm_compute. auto. Qed.

(** * C49 *)
(** Whatever the fragments spread: the analysis stops (the recursion bound is never met), every visited field is reached by
    a path that enters no fragment inside itself, so it is at most as many fragments deep as there are fragments; and
    every field that can be reached at all is visited. *)
Theorem analysis_terminates_on_any_fragments :
  forall (S : schema) (d : document) (o : operation) (vals : list (name * value)),
    ~ In OFuel (ovisit_operation S d o vals) /\
    (forall al n args ds sub fd t b, In (OEnter al n args ds sub fd t b) (ovisit_operation S d o vals) ->
       exists p, selected S d o p t (SField al n args ds sub) /\ NoDup (path_fragments p) /\
                 length (path_fragments p) <= length (doc_frags d)) /\
    (forall p al n args ds sub fd t, selected S d o p t (SField al n args ds sub) -> has_field t n fd ->
       exists b, In (OEnter al n args ds sub fd t b) (ovisit_operation S d o vals)).
Proof.
  intros S d o vals. split; [apply no_fuel|]. split.
  - intros * H. apply enter_iff in H as (p & A & B & C & ->). exists p. split; auto. split; auto.
    destruct A as (sels & A & _). eapply simple_bound; eauto.
  - intros * (sels & H & Hin) Hf. destruct (shorten _ _ _ _ _ _ H) as (p' & A & B & _).
    eexists. apply enter_iff. exists p'. split; [exists sels; auto|]. split; auto.
Qed.
Print Assumptions analysis_terminates_on_any_fragments.
(** The only panic is excluded if the schema defines the root types it names. *)
Theorem analysis_never_panics :
  forall (S : schema) (d : document) (o : operation) (vals : list (name * value)),
    wf_schema S -> ~ In OPanic (ovisit_operation S d o vals).
Proof.
  intros S d o vals W. apply no_panic. intros n. unfold op_root_name. destruct (op_type o).
  - intros [= <-]. apply W.
  - apply W.
  - apply W.
Qed.
Print Assumptions analysis_never_panics.
Example cyclic_fragments_ex :
  on_a_cycle ex_analysis_doc (tx "F") /\
  map (fun e => match e with OEnter _ n _ _ _ _ _ b => (n, b) | _ => ([], false) end)
    (filter (fun e => match e with OEnter _ _ _ _ _ _ _ _ => true | _ => false end) (ovisit_operation ex_schema ex_analysis_doc ex_analysis_op ex_skip))
  = [(tx "dog", false); (tx "name", false); (tx "friend", false); (tx "friend", false); (tx "name", false);
     (tx "pet", true); (tx "friend", false); (tx "name", false); (tx "name", true)].
Proof.
  split; [|vm_compute; reflexivity].
  assert (F : fragment_uses ex_analysis_doc (tx "F") (tx "G")).
  { eexists. split; [exists [], [mk_frag "G" "Pet" [fld "name" [] []; spr "F"]]; split; [reflexivity|]; split; [reflexivity|]; intros [H|[]]; vm_compute in H; discriminate|].
    eexists. split; [left; reflexivity|]. eapply spread_inline; [left; reflexivity|]. eapply spread_field; [left; reflexivity|]. apply spread_here. }
  eapply plus_step; [exact F|]. apply plus_one.
  eexists. split; [exists [mk_frag "F" "Pet" [SInline (Some (tx "Dog")) [] [fld "friend" [] [spr "G"]]]], []; split; [reflexivity|]; split; [reflexivity|]; intros []|].
  eexists. split; [right; left; reflexivity|]. apply spread_here.
Qed.

(** * C39 *)
(** A field is analysed as included exactly if some way to it, from the operation through fields, inline fragments and
    spreads, has no excluded selection on it (nor is the field itself excluded); it is analysed as excluded exactly if
    some way that enters no fragment twice has one. *)
Theorem skip_and_include_exclude_exactly :
  forall (S : schema) (d : document) (o : operation) (vals : list (name * value)),
    unique_conditions S d o vals ->
    forall al n args ds sub fd t, has_field t n fd ->
      (In (OEnter al n args ds sub fd t true) (ovisit_operation S d o vals) <->
       exists p, selected S d o p t (SField al n args ds sub) /\ path_included o vals ds p) /\
      (In (OEnter al n args ds sub fd t false) (ovisit_operation S d o vals) <->
       exists p, selected S d o p t (SField al n args ds sub) /\ simple p /\ ~ path_included o vals ds p).
Proof.
  intros S d o vals U al n args ds sub fd t Hf.
  assert (I : forall p, selected S d o p t (SField al n args ds sub) -> (all_included o vals (StField ds :: p) = true <-> path_included o vals ds p)).
  { intros p Hp. rewrite all_included_map. apply (all_included_iff S d o vals p t (SField al n args ds sub)); auto. }
  split.
  - rewrite enter_iff. split.
    + intros (p & A & B & _ & C). exists p. split; auto. apply I; auto.
    + intros (p & A & B). assert (A' := A). destruct A as (sels & A & Hin). destruct (shorten _ _ _ _ _ _ A) as (p' & D & E & F).
      assert (A2 : selected S d o p' t (SField al n args ds sub)) by (exists sels; auto).
      exists p'. split; auto. split; auto. split; auto. symmetry. apply I; auto.
      destruct B as (B1 & B2). split; auto.
  - rewrite enter_iff. split.
    + intros (p & A & B & _ & C). exists p. split; auto. split; auto. rewrite <- I by auto. congruence.
    + intros (p & A & B & C). exists p. split; auto. split; auto. split; auto. rewrite <- I in C by auto.
      destruct (all_included o vals (StField ds :: p)); congruence.
Qed.
Print Assumptions skip_and_include_exclude_exactly.
Example conditions_ex :
  excluded ex_analysis_op ex_skip [sk (VVar (tx "s"))] /\ ~ excluded ex_analysis_op ex_keep [sk (VVar (tx "s"))] /\
  excluded ex_analysis_op ex_keep [inc (VVar (tx "i"))].
Proof.
  assert (U1 := proj1 (proj1 ex_unique)). assert (U2 := proj1 (proj2 (proj1 ex_unique))). assert (U3 := proj1 (proj2 (proj2 ex_unique))).
  split; [|split].
  - eexists _, _. split; [left; reflexivity|]. split; [left; reflexivity|]. left. split; auto.
    eapply cond_provided; [left; reflexivity|reflexivity|reflexivity|left; reflexivity].
  - apply (included_iff ex_analysis_op ex_keep); auto; try (vm_compute; reflexivity).
    apply once_all; [repeat constructor; intros []|]. intros x [<-|[]]. repeat constructor. intros [].
  - eexists _, _. split; [left; reflexivity|]. split; [left; reflexivity|]. right. split; auto.
    eapply cond_default; [right; left; reflexivity|reflexivity|reflexivity| |reflexivity]. cbn [map ex_keep fst]. intros [H|[]]. vm_compute in H. discriminate.
Qed.

(** * C34 *)
(** [k] included fields are nested in each other, fragments expanded in place *)
Definition nested_included (S : schema) (d : document) (o : operation) (vals : list (name * value)) (ok_path : list step -> Prop) (k : nat) : Prop :=
  exists p t al n args ds sub fd, selected S d o p t (SField al n args ds sub) /\ has_field t n fd /\ ok_path p /\
    path_included o vals ds p /\ k = 1 + path_fields p.
(** The depth is the greatest such number (0 if nothing is included), for every document whatever its fragments: paths
    enter no fragment inside itself. *)
Theorem query_depth_is_the_maximum :
  forall (S : schema) (d : document) (o : operation) (vals : list (name * value)),
    unique_conditions S d o vals ->
    (forall k, nested_included S d o vals simple k -> k <= query_depth (ovisit_operation S d o vals)) /\
    (query_depth (ovisit_operation S d o vals) = 0 \/ nested_included S d o vals simple (query_depth (ovisit_operation S d o vals))).
Proof.
  intros S d o vals U.
  assert (G : forall k, nested_included S d o vals simple k <-> depth_at S d o vals k).
  { intros k. split.
    - intros (p & t & al & n & args & ds & sub & fd & A & B & C & D & E). exists p, t, al, n, args, ds, sub, fd.
      split; auto. split; auto. split; auto. split; auto. rewrite all_included_map. apply (all_included_iff S d o vals p t (SField al n args ds sub)); auto.
    - intros (p & t & al & n & args & ds & sub & fd & A & B & C & D & E). exists p, t, al, n, args, ds, sub, fd.
      split; auto. split; auto. split; auto. split; auto. rewrite all_included_map in D. apply (all_included_iff S d o vals p t (SField al n args ds sub)); auto. }
  destruct (query_depth_spec S d o vals) as (A & B). split; [|destruct B as [B|B]; [left; auto|right; apply G; auto]].
  intros k Hk. apply A, G; auto.
Qed.
Print Assumptions query_depth_is_the_maximum.
(** In a document without fragment cycles that is the maximum over all paths. *)
Theorem query_depth_acyclic :
  forall (S : schema) (d : document) (o : operation) (vals : list (name * value)),
    unique_conditions S d o vals -> (forall n, ~ on_a_cycle d n) ->
    (forall k, nested_included S d o vals (fun _ => True) k -> k <= query_depth (ovisit_operation S d o vals)) /\
    (query_depth (ovisit_operation S d o vals) = 0 \/ nested_included S d o vals (fun _ => True) (query_depth (ovisit_operation S d o vals))).
Proof.
  intros S d o vals U Hac. destruct (query_depth_is_the_maximum S d o vals U) as (A & B).
  assert (G : forall k, nested_included S d o vals (fun _ => True) k <-> nested_included S d o vals simple k).
  { intros k. split; intros (p & t & al & n & args & ds & sub & fd & C & D & E & F); exists p, t, al, n, args, ds, sub, fd; (split; [auto|]); (split; [auto|]); split; auto.
    destruct C as (sels & C & _). eapply acyclic_simple; eauto. }
  split; [|destruct B as [B|B]; [left; auto|right; apply G; auto]]. intros k Hk. apply A, G; auto.
Qed.
Print Assumptions query_depth_acyclic.
Example query_depth_ex :
  query_depth (ovisit_operation ex_schema ex_analysis_doc ex_analysis_op ex_skip) = 2 /\
  query_depth (ovisit_operation ex_schema ex_analysis_doc ex_analysis_op ex_keep) = 4.
Proof. vm_compute. auto. Qed.

(** * C36 *)
Lemma argument_used_iff S d o vals a i : In (OArg a i) (ovisit_operation S d o vals) <-> exists dss, argument_used S d o dss a i.
Proof.
  rewrite arg_iff. split.
  - intros [(x & dd & A & B & C & D)|[(p & t & al & n & args & ds & sub & fd & A & B & C & D & E)|(p & t & s & x & dd & A & B & C & D & E & F & G)]].
    + exists []. eapply au_op; eauto.
    + eexists. eapply au_field; eauto.
    + eexists. eapply au_dir; eauto.
  - intros (dss & H). inversion H as [p t al n args ds sub fd a' i' (sels & A & A') B C D|p t s x dd a' i' (sels & A & A') B C D E F|x dd a' i' A B C D]; subst.
    + right; left. destruct (shorten _ _ _ _ _ _ A) as (p' & K & L & _). exists p', t, al, n, args, ds, sub, fd. split; [exists sels; auto|]. auto.
    + right; right. destruct (shorten _ _ _ _ _ _ A) as (p' & K & L & _). exists p', t, s, x, dd. split; [exists sels; auto|]. auto 10.
    + left. exists x, dd. auto.
Qed.

(** The full property: what is reported is exactly the lists longer than [mx] in the arguments given in the operation, with
    the variables replaced by what they stand for, at any nesting but not inside another such list. *)
Definition input_sizes_exact (S : schema) (d : document) (o : operation) (vals : list (name * value)) (mx : nat) : Prop :=
  forall n nm, In (n, nm) (input_size_offenders mx vals (op_vars o) (ovisit_operation S d o vals)) <->
    exists dss a i w q, argument_used S d o dss a i /\ resolves_to o vals (snd a) w /\ oversized mx w q n /\ nm = dotted (fst a) q.
(** Every variable given in an argument is provided or defined (checked by other rules). *)
Definition variables_known (S : schema) (d : document) (o : operation) (vals : list (name * value)) : Prop :=
  NoDup (map vd_name (op_vars o)) /\ NoDup (map fst vals) /\
  forall dss a i x, argument_used S d o dss a i -> var_in x (snd a) -> In x (map vd_name (op_vars o)).

(** Proved part: it holds if each variable used without a provided value stands directly at a place that is named like it,
    or if no default contains an oversized list. Missing: other variables that take their default (see the refutation). *)
Theorem input_sizes_exact_partial :
  forall (S : schema) (d : document) (o : operation) (vals : list (name * value)) (mx : nat),
    variables_known S d o vals ->
    ((forall dss a i q x, argument_used S d o dss a i -> inside_value (snd a) q (VVar x) ->
        In x (map fst vals) \/ dotted (fst a) q = x) \/
     (forall v df q n, In v (op_vars o) -> vd_default v = Some df -> ~ oversized mx df q n)) ->
    input_sizes_exact S d o vals mx.
Proof.
  intros S d o vals mx (Hv & Hk & Hdef) Hyp n nm. unfold input_size_offenders. rewrite in_flat_map.
  set (env := fun x => match assoc x vals with
                       | Some w => w
                       | None => match find (fun vd => teqb (vd_name vd) x) (op_vars o) with
                                 | Some vd => match vd_default vd with Some w => w | None => VNull end
                                 | None => VNull end end).
  assert (Env : forall x, In x (map vd_name (op_vars o)) -> forall w, variable_value o vals x w <-> w = env x).
  { intros x Hx w. apply in_map_iff in Hx as (vd & En & Hin). unfold variable_value, env.
    assert (Ef := NoDup_find vd_name (op_vars o) vd x Hv Hin En).
    destruct (assoc x vals) as [w'|] eqn:E.
    - apply assoc_In in E. split.
      + intros [H|(H & _)]; [|exfalso; apply H; apply in_map_iff; exists (x, w'); auto].
        apply (assoc_NoDup x vals w Hk) in H. apply (assoc_NoDup x vals w' Hk) in E. congruence.
      + intros ->. auto.
    - apply assoc_None in E. rewrite Ef. split.
      + intros [H|(_ & v & Hv' & En' & H)]; [exfalso; apply E; apply in_map_iff; exists (x, w); auto|].
        assert (v = vd) as -> by (assert (Q := NoDup_find vd_name (op_vars o) v x Hv Hv' En'); congruence).
        destruct (vd_default vd); auto.
      + intros ->. right. split; auto. exists vd. split; auto. split; auto. destruct (vd_default vd); auto. }
  assert (Arg : forall dss a i, argument_used S d o dss a i -> forall r, In r (arg_offenders mx vals (op_vars o) (fst a) (snd a)) <-> reported mx (subst env (snd a)) (fst a) r).
  { intros dss a i Ha. apply arg_offenders_iff. intros q x Hx r.
    assert (Hvi := inside_var_in _ _ _ Hx). assert (Hxd := Hdef _ _ _ _ Ha Hvi).
    destruct (assoc x vals) as [w|] eqn:E.
    - rewrite (var_offenders_provided _ _ _ _ w) by auto. unfold env. rewrite E. reflexivity.
    - unfold var_offenders, env. cbn [arg_offenders]. rewrite E.
      destruct Hyp as [Hyp|Hyp].
      + destruct (Hyp _ _ _ _ _ Ha Hx) as [K|K]; [apply assoc_None in E; contradiction|]. rewrite K.
        destruct (find _ (op_vars o)) as [vd|]; [destruct (vd_default vd)|]; try apply const_offenders_iff;
          (split; [intros []|intros (q' & k & B & _); inversion B]).
      + assert (Small : forall vd, In vd (op_vars o) -> forall nm r, ~ reported mx (match vd_default vd with Some w => w | None => VNull end) nm r).
        { intros vd Hin nm' r' (q' & k & B & _). destruct (vd_default vd) as [w|] eqn:Ed; [|inversion B]. eapply Hyp; eauto. }
        assert (L : ~ reported mx (match find (fun vd => teqb (vd_name vd) x) (op_vars o) with
                                   | Some vd => match vd_default vd with Some w => w | None => VNull end
                                   | None => VNull end) (dotted (fst a) q) r).
        { destruct (find (fun vd => teqb (vd_name vd) x) (op_vars o)) as [vd|] eqn:Ef; [apply Small; apply find_some in Ef; tauto|].
          intros (q' & k & B & _). inversion B. }
        destruct (find (fun vd => teqb (vd_name vd) (dotted (fst a) q)) (op_vars o)) as [vd|] eqn:Ef; [|split; [intros []|contradiction]].
        apply find_some in Ef as (Hin & _). destruct (vd_default vd) as [w|] eqn:Ed; [|split; [intros []|contradiction]].
        split; [|contradiction]. intros H. apply const_offenders_iff in H. specialize (Small _ Hin (dotted (fst a) q) r). rewrite Ed in Small. contradiction. }
  split.
  - intros (ev & Hev & Hr). destruct ev as [| | | |a i|]; try (destruct Hr; fail).
    apply argument_used_iff in Hev as (dss & Ha). apply (Arg _ _ _ Ha) in Hr as (q & k & Ho & E). injection E as -> ->.
    exists dss, a, i, (subst env (snd a)), q. split; auto. split; [|auto]. exists env. split; auto.
    intros x Hx. apply Env; eauto.
  - intros (dss & a & i & w & q & Ha & (env' & Henv & ->) & Ho & ->). exists (OArg a i). split; [apply argument_used_iff; eauto|].
    apply (Arg _ _ _ Ha). exists q, n. split; auto.
    replace (subst env (snd a)) with (subst env' (snd a)); auto.
    assert (Q : forall x, var_in x (snd a) -> env' x = env x) by (intros x Hx; apply Env; eauto).
    clear -Q. induction (snd a) as [y|z|b|s|b| |y|vs IH|es IH] using value_ind'; cbn [subst]; auto.
    + apply Q. constructor.
    + f_equal. apply map_ext_in. intros v Hin. rewrite Forall_forall in IH. apply IH; auto. intros x Hx. apply Q. eapply vi_list; eauto.
    + f_equal. apply map_ext_in. intros [k v] Hin. rewrite Forall_forall in IH. cbn [fst snd]. f_equal. apply (IH (k, v)); auto.
      intros x Hx. apply Q. eapply vi_obj; eauto.
Qed.
Print Assumptions input_sizes_exact_partial.

(** The full property fails: when a variable has no provided value, the analysis takes the default of the variable called
    like the place in the argument. Here [$b]'s default is not seen, and [$first]'s is reported although it is unused there. *)
Definition ex_size_schema : schema :=
  {| s_desc := None;
     s_types := [DBuiltin BInt; mk_obj "Query" [] [mk_fd "f" [mk_iv "a" (TList (ty "Int") false) None; mk_iv "c" (TList (ty "Int") false) None] (ty "Int")]];
     s_ddefs := []; s_query := tx "Query"; s_mutation := None; s_subscription := None; s_dirs := [] |}.
Definition int_list (l : list Z) : value := VList (map VInt l).
(** query($b: [Int] = [1, 2, 3]) { f(a: $b) } *)
Definition ex_size_missed : operation :=
  op_query None [mk_var "b" (TList (ty "Int") false) (Some (int_list [1; 2; 3]%Z))] [fld "f" [(tx "a", VVar (tx "b"))] []].
(** query($a: [Int] = [1, 2, 3], $b: [Int]) { f(a: $b, c: $a) } with a = [] *)
Definition ex_size_spurious : operation :=
  op_query None [mk_var "a" (TList (ty "Int") false) (Some (int_list [1; 2; 3]%Z)); mk_var "b" (TList (ty "Int") false) None]
    [fld "f" [(tx "a", VVar (tx "b")); (tx "c", VVar (tx "a"))] []].
Definition doc_of (o : operation) : document := {| doc_ops := [o]; doc_frags := [] |}.
Lemma single_field_used S o (f : name) args dss a i : op_sel o = [SField None f args [] []] -> op_dirs o = [] ->
  argument_used S (doc_of o) o dss a i -> In a args.
Proof.
  intros Es Ed H.
  assert (R : forall p t sels, reaches S (doc_of o) o p t sels -> forall s, In s sels -> s = SField None f args [] []).
  { intros p t sels Hr s Hs. destruct (reaches_occurs _ _ _ _ _ _ Hr _ Hs) as [K|(f' & [] & _)].
    rewrite Es in K. apply written_occurs in K. cbn in K. destruct K as [K|[]]. auto. }
  inversion H as [p t al n args' ds sub fd a' i' (sels & A & A') B C D|p t s x dd a' i' (sels & A & A') B C D E F|x dd a' i' A B C D]; subst.
  - apply (R _ _ _ A) in A'. injection A' as -> -> -> -> ->. auto.
  - apply (R _ _ _ A) in A'. subst s. destruct C.
  - rewrite Ed in A. destruct A.
Qed.
Theorem input_sizes_exact_refuted :
  (exists S d o vals mx, variables_known S d o vals /\
     exists n nm, ~ In (n, nm) (input_size_offenders mx vals (op_vars o) (ovisit_operation S d o vals)) /\
       exists dss a i w q, argument_used S d o dss a i /\ resolves_to o vals (snd a) w /\ oversized mx w q n /\ nm = dotted (fst a) q) /\
  (exists S d o vals mx, variables_known S d o vals /\
     exists n nm, In (n, nm) (input_size_offenders mx vals (op_vars o) (ovisit_operation S d o vals)) /\
       ~ exists dss a i w q, argument_used S d o dss a i /\ resolves_to o vals (snd a) w /\ oversized mx w q n /\ nm = dotted (fst a) q).
Proof.
  assert (Hroot : exists t, get_type ex_size_schema (tx "Query") = Some t /\
     get_field (td_fields t) (tx "f") = Some (mk_fd "f" [mk_iv "a" (TList (ty "Int") false) None; mk_iv "c" (TList (ty "Int") false) None] (ty "Int"))).
  { eexists. split; vm_compute; reflexivity. }
  destruct Hroot as (t & Ht & Hf).
  split.
  - exists ex_size_schema, (doc_of ex_size_missed), ex_size_missed, [], 2. split.
    + split; [repeat constructor; intros []|]. split; [constructor|]. intros dss a i x Ha Hx.
      apply (single_field_used _ _ (tx "f") [(tx "a", VVar (tx "b"))]) in Ha; auto. destruct Ha as [<-|[]]. cbn [snd] in Hx. inversion Hx; subst. left; auto.
    + exists 3, (tx "a"). split; [vm_compute; intros []|].
      exists [[]], (tx "a", VVar (tx "b")), (mk_iv "a" (TList (ty "Int") false) None), (int_list [1; 2; 3]%Z), [].
      split; [|split; [|split]].
      * eapply (au_field _ _ _ [] t); [eexists; split; [constructor; exact Ht|left; reflexivity]|exact Hf|left; reflexivity|vm_compute; reflexivity].
      * exists (fun _ => int_list [1; 2; 3]%Z). split; [|reflexivity]. intros x Hx. cbn [snd] in Hx. inversion Hx; subst. right. split; [intros []|].
        eexists. split; [left; reflexivity|]. split; reflexivity.
      * apply (ov_here 2 [VInt 1; VInt 2; VInt 3]). cbn. lia.
      * reflexivity.
  - exists ex_size_schema, (doc_of ex_size_spurious), ex_size_spurious, [(tx "a", VList [])], 2.
    split.
    + split; [repeat constructor; [intros [H|[]]; vm_compute in H; discriminate|intros []]|]. split; [repeat constructor; intros []|]. intros dss a i x Ha Hx.
      apply (single_field_used _ _ (tx "f") [(tx "a", VVar (tx "b")); (tx "c", VVar (tx "a"))]) in Ha; auto.
      destruct Ha as [<-|[<-|[]]]; cbn [snd] in Hx; inversion Hx; subst; [right; left; auto|left; auto].
    + exists 3, (tx "a"). split; [vm_compute; auto|].
      intros (dss & a & i & w & q & Ha & (env & Henv & ->) & Ho & _).
      apply (single_field_used _ _ (tx "f") [(tx "a", VVar (tx "b")); (tx "c", VVar (tx "a"))]) in Ha; auto.
      destruct Ha as [<-|[<-|[]]]; cbn [snd subst] in *.
      * destruct (Henv (tx "b") (vi_here _)) as [[K|[]]|(_ & v & Hv & En & Hd)]; [vm_compute in K; discriminate|].
        destruct Hv as [<-|[<-|[]]]; [vm_compute in En; discriminate|]. change (env (tx "b") = VNull) in Hd. rewrite Hd in Ho. inversion Ho.
      * destruct (Henv (tx "a") (vi_here _)) as [[K|[]]|(K & _)]; [|exfalso; apply K; left; reflexivity].
        assert (K' : env (tx "a") = VList []) by congruence. rewrite K' in Ho. inversion Ho; subst. match goal with E : nth_error [] ?j = _ |- _ => destruct j; discriminate E end.
Qed.
Print Assumptions input_sizes_exact_refuted.
(** the hypotheses of the partial theorem are met: query($a: [Int] = [1, 2, 3]) { f(a: $a) } *)
Example input_sizes_ex :
  let o := op_query None [mk_var "a" (TList (ty "Int") false) (Some (int_list [1; 2; 3]%Z))] [fld "f" [(tx "a", VVar (tx "a")); (tx "c", VList [VInt 1; VVar (tx "a")])] []] in
  let vals := [(tx "a", VList [VList []; int_list [1; 2; 3]%Z])] in
  input_sizes_exact ex_size_schema (doc_of o) o vals 2 /\
  input_size_offenders 2 vals (op_vars o) (ovisit_operation ex_size_schema (doc_of o) o vals) = [(3, tx "a.1"); (3, tx "c.1.1")].
Proof.
  intros o vals. split; [|vm_compute; reflexivity].
  apply input_sizes_exact_partial.
  - split; [repeat constructor; intros []|]. split; [repeat constructor; intros []|]. intros dss a i x Ha Hx.
    apply (single_field_used _ _ (tx "f") [(tx "a", VVar (tx "a")); (tx "c", VList [VInt 1; VVar (tx "a")])]) in Ha; auto. destruct Ha as [<-|[<-|[]]]; cbn [snd] in Hx.
    + inversion Hx; subst. left; auto.
    + inversion Hx as [|? v Hin Hv|]; subst. destruct Hin as [<-|[<-|[]]]; inversion Hv; subst. left; auto.
  - left. intros dss a i q x Ha Hx. left.
    apply (single_field_used _ _ (tx "f") [(tx "a", VVar (tx "a")); (tx "c", VList [VInt 1; VVar (tx "a")])]) in Ha; auto.
    apply inside_var_in in Hx. destruct Ha as [<-|[<-|[]]]; cbn [snd] in Hx.
    + inversion Hx; subst. left; auto.
    + inversion Hx as [|? v Hin Hv|]; subst. destruct Hin as [<-|[<-|[]]]; inversion Hv; subst. left; auto.
Qed.

(** * C37 *)
Section C37.
  Variable S : schema.
  Variable d : document.
  Variable hook : name -> value -> option text.
  Variable str_enum one_of : bool.
  Variable o : operation.
  Variable vals : list (name * value).
  Let errors := variable_value_errors S hook str_enum one_of vals (ovisit_operation S d o vals).
  Let valid := conforms (fun n x => hook n x = None) str_enum one_of S.
  Definition input_typed (v : vardef) : Prop := exists t, get_type S (tref_base (vd_type v)) = Some t /\ td_is_input t = true.
  Lemma input_typed_iff v : has_input_type S (vd_type v) = true <-> input_typed v.
  Proof.
    unfold has_input_type, input_typed. destruct (get_type S (tref_base (vd_type v))) as [t|]; split; eauto.
    - intros (t' & [= <-] & H); auto.
    - discriminate.
    - intros (t' & ? & _); discriminate.
  Qed.

  (** Each error, exactly. *)
  Theorem variable_value_errors_exact :
    NoDup (map vd_name (op_vars o)) -> NoDup (map fst vals) -> (forall v, In v (op_vars o) -> input_typed v) ->
    (forall v, In (MissingValue v) errors <->
       In v (op_vars o) /\ tref_required (vd_type v) = true /\ vd_default v = None /\ ~ In (vd_name v) (map fst vals)) /\
    (forall v x, (exists es, In (InvalidValue v x es) errors) <-> In v (op_vars o) /\ In (vd_name v, x) vals /\ ~ valid (vd_type v) x) /\
    (forall k x, In (UnusedValue k x) errors <-> In (k, x) vals /\ ~ In k (map vd_name (op_vars o))).
  Proof.
    intros Hv Hk Hin. unfold errors. split; [|split].
    - intros v. rewrite variable_value_errors_iff by auto. split.
      + intros [(v' & Hv' & H)|(k & x & ? & _)]; [|discriminate]. unfold variable_errors in H.
        destruct (has_input_type S (vd_type v')); [|destruct H]. destruct (assoc (vd_name v') vals) as [x|] eqn:E.
        * destruct (coerce_value hook str_enum one_of S (vd_type v') x []); [destruct H|destruct H as [H|[]]; discriminate].
        * destruct (vd_required v') eqn:Er; [|destruct H]. destruct H as [[= ->]|[]]. apply assoc_None in E.
          unfold vd_required in Er. destruct (vd_default v); [discriminate|]. auto.
      + intros (A & B & C & D). left. exists v. split; auto. unfold variable_errors. rewrite (proj2 (input_typed_iff v)) by auto.
        rewrite (proj2 (assoc_None _ _) D). unfold vd_required. rewrite C, B. left; auto.
    - intros v x. split.
      + intros (es & H). rewrite variable_value_errors_iff in H by auto. destruct H as [(v' & Hv' & H)|(k & x' & ? & _)]; [|discriminate]. unfold variable_errors in H.
        destruct (has_input_type S (vd_type v')); [|destruct H]. destruct (assoc (vd_name v') vals) as [x'|] eqn:E.
        * destruct (coerce_value hook str_enum one_of S (vd_type v') x' []) as [|e l] eqn:Ec; [destruct H|]. destruct H as [H|[]]. injection H as -> -> <-.
          split; auto. split; [apply assoc_In; auto|]. unfold valid. rewrite <- (coerce_accepts_exactly_conforming hook str_enum one_of S (vd_type v) x []). congruence.
        * destruct (vd_required v'); [destruct H as [H|[]]; discriminate|destruct H].
      + intros (A & B & C). exists (coerce_value hook str_enum one_of S (vd_type v) x []). rewrite variable_value_errors_iff by auto. left. exists v. split; auto.
        unfold variable_errors. rewrite (proj2 (input_typed_iff v)) by auto. rewrite (assoc_NoDup _ _ _ Hk B).
        unfold valid in C. rewrite <- (coerce_accepts_exactly_conforming hook str_enum one_of S (vd_type v) x []) in C.
        destruct (coerce_value hook str_enum one_of S (vd_type v) x []); [congruence|left; auto].
    - intros k x. rewrite variable_value_errors_iff by auto. split.
      + intros [(v' & Hv' & H)|(k' & x' & [= <- <-] & H)]; auto. exfalso. unfold variable_errors in H.
        destruct (has_input_type S (vd_type v')); [|destruct H]. destruct (assoc (vd_name v') vals) as [x'|].
        * destruct (coerce_value hook str_enum one_of S (vd_type v') x' []); [destruct H|destruct H as [H|[]]; discriminate].
        * destruct (vd_required v'); [destruct H as [H|[]]; discriminate|destruct H].
      + intros (A & B). right. eauto.
  Qed.
  (** Nothing is reported exactly if the values fit the variables. *)
  Theorem variable_values_valid_iff :
    NoDup (map vd_name (op_vars o)) -> NoDup (map fst vals) -> (forall v, In v (op_vars o) -> input_typed v) ->
    errors = [] <->
    (forall k x, In (k, x) vals -> exists v, In v (op_vars o) /\ vd_name v = k /\ valid (vd_type v) x) /\
    (forall v, In v (op_vars o) -> tref_required (vd_type v) = true -> vd_default v = None -> In (vd_name v) (map fst vals)).
  Proof.
    intros Hv Hk Hin. destruct (variable_value_errors_exact Hv Hk Hin) as (A & B & C).
    assert (Dec : forall t x, valid t x \/ ~ valid t x).
    { intros t x. unfold valid. rewrite <- (coerce_accepts_exactly_conforming hook str_enum one_of S t x []).
      destruct (coerce_value hook str_enum one_of S t x []); [left; auto|right; discriminate]. }
    split.
    - intros E. rewrite E in *. split.
      + intros k x Hx. destruct (in_dec text_dec k (map vd_name (op_vars o))) as [Hi|Hi].
        * apply in_map_iff in Hi as (v & <- & Hv'). exists v. split; auto. split; auto. destruct (Dec (vd_type v) x) as [|Hno]; auto.
          exfalso. destruct (proj2 (B v x) (conj Hv' (conj Hx Hno))) as (es & []).
        * exfalso. apply (proj2 (C k x)). auto.
      + intros v Hv' Hr Hd. destruct (in_dec text_dec (vd_name v) (map fst vals)); auto. exfalso. apply (proj2 (A v)). auto.
    - intros (H1 & H2). destruct errors as [|e l] eqn:E; auto. exfalso.
      assert (He : In e errors) by (rewrite E; left; auto). rewrite <- E in *. destruct e as [v|v x es|k x].
      + apply A in He as (K1 & K2 & K3 & K4). auto.
      + destruct (proj1 (B v x) (ex_intro _ es He)) as (K1 & K2 & K3). apply H1 in K2 as (v' & L1 & L2 & L3).
        assert (Q := NoDup_find vd_name _ _ _ Hv K1 eq_refl). rewrite (NoDup_find vd_name _ _ _ Hv L1 L2) in Q. congruence.
      + apply C in He as (K1 & K2). apply H1 in K1 as (v & L1 & L2 & _). apply K2. rewrite <- L2. apply in_map; auto.
  Qed.
End C37.
Print Assumptions variable_value_errors_exact.
Print Assumptions variable_values_valid_iff.
Example variable_values_ex :
  let o := op_query None [mk_var "id" (ty_req "ID") None; mk_var "n" (TList (ty "Int") false) None; mk_var "b" (ty_req "Int") (Some (VInt 1))] [fld "name" [] []] in
  let run := fun vals => variable_value_errors ex_schema no_hook true true vals (ovisit_operation ex_schema (doc_of o) o vals) in
  run [(tx "n", VInt 3); (tx "id", VStr (tx "x"))] = [] /\
  run [(tx "n", VStr (tx "q")); (tx "other", VNull)] =
    [MissingValue (mk_var "id" (ty_req "ID") None);
     InvalidValue (mk_var "n" (TList (ty "Int") false) None) (VStr (tx "q")) (coerce_value no_hook true true ex_schema (TList (ty "Int") false) (VStr (tx "q")) []);
     UnusedValue (tx "other") VNull] /\
  NoDup (map vd_name (op_vars o)) /\ (forall v, In v (op_vars o) -> input_typed ex_schema v).
Proof.
  intros o run. split; [vm_compute; reflexivity|]. split; [vm_compute; reflexivity|]. split; [apply nodup_text_NoDup; vm_compute; reflexivity|].
  intros v [<-|[<-|[<-|[]]]]; eexists; split; vm_compute; reflexivity.
Qed.
