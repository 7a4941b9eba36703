(** Cases which meet the hypotheses of the theorems of ComplexityProps.v, and cases which show where the results stop. *)
From Coq Require Import Permutation.
From Verif Require Import Base Ast Graph Maps Doc DocSpec DocRules DocRulesSpec DocVariablesSpec FragmentsSpec FragmentCyclesProofs
  CoercionTypes Coercion Operation OperationSpec OperationProofs OperationProps Complexity ComplexitySpec ComplexityProofs ComplexityProps Examples.
Local Open Scope string_scope.
Local Open Scope list_scope.

(** query Q { pets(first: 3) { name ...F ... on Cat { meows } ... on Dog { friend { name } } } name } fragment F on Pet { name } *)
Definition ex_cost_op : operation :=
  op_query (Some (tx "Q")) [] [fld "pets" [(tx "first", VInt 3)]
     [fld "name" [] []; spr "F"; SInline (Some (tx "Cat")) [] [fld "meows" [] []]; SInline (Some (tx "Dog")) [] [fld "friend" [] [fld "name" [] []]]]; fld "name" [] []].
Definition ex_cost_doc : document := {| doc_ops := [ex_cost_op]; doc_frags := [mk_frag "F" "Pet" [fld "name" [] []]] |}.
(** A cat would cost 2 + 2 and a dog costs 2 + 3. *)
Example ex_default_complexity : unique_conditions ex_schema ex_cost_doc ex_cost_op [] /\
  default_complexity ex_schema (ovisit_operation ex_schema ex_cost_doc ex_cost_op []) = CCost 5.
Proof. split; [apply unique_check_ok|]; vm_compute; reflexivity. Qed.

Definition cost_dir args : directive := {| dir_name := tx "cost"; dir_args := args |}.
Definition with_cost args fd := {| fd_name := fd_name fd; fd_desc := None; fd_args := fd_args fd; fd_type := fd_type fd; fd_dirs := [cost_dir args]; fd_builtin := false |}.
(** type Query { items(first: Int): Conn @cost(kind: connection)  leaf: Int }  type Conn { nodes: [Node]  total: Int @cost(weight: 7) }  type Node { id: ID } *)
Definition ex_relay_schema : schema :=
  {| s_desc := None; s_types := [ mk_obj "Query" [] [with_cost [(tx "kind", VStr (tx "connection"))] (mk_fd "items" [mk_iv "first" (ty "Int") None] (ty "Conn"));
                                                     mk_fd "leaf" [] (ty "Int")];
       mk_obj "Conn" [] [mk_fd "nodes" [] (TList (ty "Node") false); with_cost [(tx "weight", VStr (tx "7.0"))] (mk_fd "total" [] (ty "Int"))];
       mk_obj "Node" [] [mk_fd "id" [] (ty "ID")]; DBuiltin BInt; DBuiltin BID ];
     s_ddefs := []; s_query := tx "Query"; s_mutation := None; s_subscription := None; s_dirs := [] |}.
Definition ex_weight (s : text) : option N := if teqb s (tx "7.0") then Some 7%N else None.
(** floor(2 ln 2) = 1, floor(2 ln 10) = 4, floor(2 ln 1000) = 13 *)
Definition ex_ln (n : N) : N := if (n <? 10)%N then 1%N else if (n <? 1000)%N then 4%N else 13%N.
Definition items_field first sub := fld "items" [(tx "first", first)] sub.
(** query($n: Int = 1000) { items(first: $n) { nodes { id } } items(first: $n) { nodes { id } total } } *)
Definition ex_relay_op : operation :=
  op_query None [mk_var "n" (ty "Int") (Some (VInt 1000))] [items_field (VVar (tx "n")) [fld "nodes" [] [fld "id" [] []]]; items_field (VVar (tx "n")) [fld "nodes" [] [fld "id" [] []]; fld "total" [] []]].
Definition ex_relay_doc : document := {| doc_ops := [ex_relay_op]; doc_frags := [] |}.
Definition ex_relay_vals : list (name * value) := [(tx "n", VInt 10)].

Lemma in_set_single S d kept act t ts s act' t' ts' f : in_set S d kept act t ts [s] act' t' ts' f ->
  match s with
  | SField _ _ _ ds _ => kept ds /\ act' = act /\ t' = t /\ ts' = ts /\ f = s
  | SInline None ds sub => kept ds /\ in_set S d kept act t ts sub act' t' ts' f
  | SInline (Some c) ds sub => kept ds /\ exists t1, get_type S c = Some t1 /\ in_set S d kept act t1 (t :: ts) sub act' t' ts' f
  | SSpread n ds => kept ds /\ ~ In n act /\ exists fr t1, defines d n fr /\ get_type S (fr_cond fr) = Some t1 /\
                      in_set S d kept (n :: act) t1 (t :: ts) (fr_sel fr) act' t' ts' f
  end.
Proof. intros H. inversion H; subst; match goal with Hi : In _ [_] |- _ => destruct Hi as [->|[]] end; eauto 10. Qed.
Lemma in_set_cons S d kept act t ts s sels act' t' ts' f : in_set S d kept act t ts (s :: sels) act' t' ts' f ->
  in_set S d kept act t ts [s] act' t' ts' f \/ in_set S d kept act t ts sels act' t' ts' f.
Proof.
  intros H. inversion H; subst; match goal with Hi : In _ (_ :: _) |- _ => destruct Hi as [->|Hi] end;
    first [left; solve [eapply is_field; eauto; left; reflexivity|eapply is_inline; eauto; left; reflexivity|eapply is_inline_on; eauto; left; reflexivity|eapply is_spread; eauto; left; reflexivity]
          |right; solve [eapply is_field; eauto|eapply is_inline; eauto|eapply is_inline_on; eauto|eapply is_spread; eauto]].
Qed.
Lemma in_set_nil S d kept act t ts act' t' ts' f : ~ in_set S d kept act t ts [] act' t' ts' f.
Proof. intros H. inversion H; subst; match goal with Hi : In _ [] |- _ => destruct Hi end. Qed.
Lemma sub_of x al n args ds sub : nd_field x = SField al n args ds sub ->
  nd_alias x = al /\ nd_name x = n /\ nd_args x = args /\ nd_dirs x = ds /\ nd_sub x = sub.
Proof. unfold nd_field. intros H. injection H. auto. Qed.

Ltac fields_of H :=
  match type of H with in_set _ _ _ _ _ _ (_ :: _ :: _) _ _ _ _ => apply in_set_cons in H; destruct H as [H|H]; fields_of H | _ => idtac end.

(** a computable condition for the hypotheses of [relay_complexity_is_the_maximum] *)
Definition written_in (d : document) (o : operation) : list selection := all_written (op_sel o) ++ flat_map (fun f => all_written (fr_sel f)) (doc_frags d).
Lemma selected_written S d o p t s : selected S d o p t s -> In s (written_in d o).
Proof.
  intros (sels & Hr & Hin). apply in_or_app. destruct (reaches_occurs _ _ _ _ _ _ Hr _ Hin) as [K|(f & Hf & K)]; [left|right; apply in_flat_map; exists f; split; auto];
    apply written_occurs; auto.
Qed.
Lemma agreeing_fields S d o vals twice_ln :
  (forall x y, In (nd_field x) (written_in d o) -> In (nd_field y) (written_in d o) -> nd_key x = nd_key y ->
     nd_name x = nd_name y /\ nd_args x = nd_args y /\ NoDup (map fst (nd_args x))) ->
  merged_fields_agree S d o vals twice_ln.
Proof.
  intros H x y Hs. assert (Ek : nd_key x = nd_key y) by (destruct Hs; auto).
  destruct (same_transfer S d o _ _ _ _ _ _ _ _ (agree_refl S d o _) Hs) as (_ & ((p & Px) & _) & ((q & Py) & _)).
  destruct (H x y) as (A & B & C); auto; try (eapply selected_written; eauto). rewrite <- B. auto.
Qed.
Lemma reaches_type S d o p t sels : reaches S d o p t sels -> In t (s_types S).
Proof.
  induction 1 as [t Hr|p t sels al n args ds sub fd t1 _ _ _ _ _ Ht|p t sels ds sub _ IH _|p t sels c ds sub t1 _ _ _ Ht|p t sels n ds f t1 _ _ _ _ Ht]; auto;
    try (apply (get_type_Some _ _ _ Ht)). apply op_root_type in Hr as (n & _ & Ht). apply (get_type_Some _ _ _ Ht).
Qed.
Definition leaf_check (S : schema) (d : document) (o : operation) : bool :=
  forallb (fun s => match s with
    | SField _ n _ _ (_ :: _) => forallb (fun t => match get_field (td_fields t) n with
        | Some fd => match get_type S (tref_base (fd_type fd)) with Some ft => td_composite ft | None => true end
        | None => true end) (s_types S)
    | _ => true end) (written_in d o).
Lemma leaf_check_ok S d o : leaf_check S d o = true -> leaves_are_leaves S d o.
Proof.
  unfold leaf_check. rewrite forallb_forall. intros H p t al n args ds sub fd ft Hs Hf Ht Hc.
  assert (Hin : In t (s_types S)) by (destruct Hs as (sels & Hr & _); eapply reaches_type; eauto).
  apply selected_written in Hs. apply H in Hs. destruct sub as [|s0 sub]; auto. rewrite forallb_forall in Hs.
  apply Hs in Hin. unfold has_field in Hf. rewrite Hf, Ht in Hin. congruence.
Qed.
Example ex_relay_complexity :
  unique_conditions ex_relay_schema ex_relay_doc ex_relay_op ex_relay_vals /\ leaves_are_leaves ex_relay_schema ex_relay_doc ex_relay_op /\
  merged_fields_agree ex_relay_schema ex_relay_doc ex_relay_op ex_relay_vals ex_ln /\
  (* items 1 + nodes 1 * 4 + total 7 *)
  relay_complexity ex_relay_schema ex_relay_op ex_relay_vals ex_weight ex_ln (ovisit_operation ex_relay_schema ex_relay_doc ex_relay_op ex_relay_vals) = CCost 12.
Proof.
  split; [apply unique_check_ok; vm_compute; reflexivity|]. split; [apply leaf_check_ok; vm_compute; reflexivity|]. split; [|vm_compute; reflexivity].
  apply agreeing_fields. intros x y Hx Hy. vm_compute in Hx, Hy. unfold nd_key.
  destruct x as [xa xn xs xd xb ? ? ? ? ?], y as [ya yn ys yd yb ? ? ? ? ?]; cbn [nd_alias nd_name nd_args].
  repeat (destruct Hx as [Hx|Hx]); try (destruct Hx as []; fail); injection Hx; intros; subst;
  repeat (destruct Hy as [Hy|Hy]); try (destruct Hy as []; fail); injection Hy; intros; subst;
  try discriminate; (split; [reflexivity|split; [reflexivity|]]); cbn [map fst]; repeat constructor; intros [].
Qed.

(** ** The bound is not always attained *)
(** type Query { a: A }  interface A { x: Int }  interface B { x: Int }  type X implements A & B { x: Int }
    type Y implements B { x: Int y: Int } *)
Definition mk_if n fs := DInterface {| if_name := tx n; if_desc := None; if_ifaces := []; if_dirs := []; if_fields := fs |}.
Definition ex_nested_schema : schema :=
  {| s_desc := None; s_types := [ mk_obj "Query" [] [mk_fd "a" [] (ty "A")]; mk_if "A" [mk_fd "x" [] (ty "Int")]; mk_if "B" [mk_fd "x" [] (ty "Int")];
       mk_obj "X" ["A"; "B"] [mk_fd "x" [] (ty "Int")]; mk_obj "Y" ["B"] [mk_fd "x" [] (ty "Int"); mk_fd "y" [] (ty "Int")]; DBuiltin BInt ];
     s_ddefs := []; s_query := tx "Query"; s_mutation := None; s_subscription := None; s_dirs := [] |}.
(** query { a { ... on B { x ... on Y { y } } } } *)
Definition ex_nested_op : operation :=
  op_query None [] [fld "a" [] [SInline (Some (tx "B")) [] [fld "x" [] []; SInline (Some (tx "Y")) [] [fld "y" [] []]]]].
Definition ex_nested_doc : document := {| doc_ops := [ex_nested_op]; doc_frags := [] |}.

Section Nested.
  Notation S := ex_nested_schema.
  Notation d := ex_nested_doc.
  Notation o := ex_nested_op.
  Notation kept := (not_excluded o []).
  Notation root := (root_node S d o kept unit tt (fun _ _ => 1%N)).
  Notation child := (child_node S d kept unit (fun _ _ => 1%N) (fun _ _ => tt)).
  Notation pc := (possible_cost S d kept unit (fun _ _ => 1%N) (fun _ => 1%N) (fun _ _ => tt) (allowed_by_all S)).
  Lemma nested_root x : root x -> nd_name x = tx "a" /\ nd_alias x = None /\ fd_type (nd_def x) = ty "A" /\
    nd_sub x = [SInline (Some (tx "B")) [] [fld "x" [] []; SInline (Some (tx "Y")) [] [fld "y" [] []]]] /\ nd_mult x = 1%N.
  Proof.
    intros (t & Ht & Hin & Hf & Hm). unfold o, op_query, op_sel in Hin. fields_of Hin. apply in_set_single in Hin as (_ & Ea & Et & _ & Ef).
    apply sub_of in Ef as (E1 & E2 & E3 & E4 & E5). rewrite E1, E2, E5. split; auto. split; auto. split; [|split; auto].
    rewrite Et, E2 in Hf. apply op_root_type in Ht as (n & Hn & Ht). vm_compute in Hn. injection Hn as <-. vm_compute in Ht. injection Ht as <-. revert Hf. generalize (nd_def x). intros fd Hf. vm_compute in Hf. injection Hf as <-. reflexivity.
  Qed.
  Lemma possible_A T : possible S (mk_if "A" [mk_fd "x" [] (ty "Int")]) T -> T = tx "X".
  Proof.
    intros H. inversion H as [|i u Hu Hi E1 E2|]; subst. clear H. vm_compute in Hu.
    repeat match type of Hu with _ \/ _ => destruct Hu as [Hu|Hu] end; try discriminate Hu; try (destruct Hu as []; fail).
    all: injection Hu as <-; vm_compute in Hi; repeat match type of Hi with _ \/ _ => destruct Hi as [Hi|Hi] end; try discriminate Hi; try (destruct Hi as []; fail); reflexivity.
  Qed.
  Lemma nested_child x y T : fd_type (nd_def x) = ty "A" ->
    nd_sub x = [SInline (Some (tx "B")) [] [fld "x" [] []; SInline (Some (tx "Y")) [] [fld "y" [] []]]] -> child x y -> allowed_by_all S T y ->
    nd_name y = tx "x" /\ nd_alias y = None /\ nd_sub y = [] /\ nd_mult y = 1%N.
  Proof.
    intros Ed Es (t & Ht & Hin & Hf & Hm) (P1 & P2). rewrite Es in Hin. rewrite Ed in Ht. vm_compute in Ht. injection Ht as <-.
    fields_of Hin. apply in_set_single in Hin as (_ & t1 & Ht1 & Hin). vm_compute in Ht1. injection Ht1 as <-.
    fields_of Hin; apply in_set_single in Hin.
    - destruct Hin as (_ & Ea & Et & _ & Ef). apply sub_of in Ef as (E1 & E2 & E3 & E4 & E5). auto.
    - exfalso. destruct Hin as (_ & t1 & Ht1 & Hin). vm_compute in Ht1. injection Ht1 as <-. fields_of Hin. apply in_set_single in Hin as (_ & Ea & Et & Eo & Ef).
      rewrite Et in P1. rewrite Eo in P2. specialize (P2 _ (or_intror (or_introl eq_refl))).
      apply possible_A in P2. inversion P1; subst. discriminate.
  Qed.
  Lemma nested_le m : pc root m -> (m <= 2)%N.
  Proof.
    intros H. inversion H as [G T items Hnd Hk Hm Hb EG Em]; subst G. clear H.
    change 2%N with (total (map (fun _ => 2%N) [tx "a"])). apply total_le with (key := it_key); auto.
    intros i Hi. assert (Hki : In (it_key i) (map it_key items)) by (apply in_map; auto). apply Hk in Hki as (x & Hx).
    assert (Kx : it_key i = tx "a").
    { destruct Hx as (Rx & _ & _ & <-). destruct (nested_root x Rx) as (A & B & _). unfold nd_key. rewrite A, B. auto. }
    split; [left; auto|]. destruct (Hm i Hi) as (((x1 & _ & C1) & _) & ((x2 & (R2 & _) & M2) & _)).
    destruct (nested_root x2 R2) as (_ & _ & _ & _ & M2'). rewrite C1, M2, M2'.
    assert (Hle : (it_below i <= 1)%N); [|lia].
    specialize (Hb i Hi). inversion Hb as [G' T' items' Hnd' Hk' Hm' Hb' EG' Em']; subst G'.
    change 1%N with (total (map (fun _ => 1%N) [tx "x"])). apply total_le with (key := it_key); auto.
    assert (Hkid : forall k y, merges S (fun _ => 1%N) (allowed_by_all S) (fun y => exists x, merges S (fun _ => 1%N) (allowed_by_all S) root T (it_key i) x /\ child x y) T' k y ->
              nd_name y = tx "x" /\ nd_alias y = None /\ nd_sub y = [] /\ nd_mult y = 1%N /\ k = nd_key y).
    { intros k y ((z & (Rz & _) & Cz) & _ & Ay & <-). destruct (nested_root z Rz) as (_ & _ & B & C & _).
      destruct (nested_child z y T' B C Cz Ay) as (D1 & D2 & D3 & D4). auto. }
    intros j Hj. assert (Hkj : In (it_key j) (map it_key items')) by (apply in_map; auto). apply Hk' in Hkj as (y & Hy).
    destruct (Hkid _ _ Hy) as (D1 & D2 & D3 & D4 & Ek). split; [left; rewrite Ek; unfold nd_key; rewrite D1, D2; auto|].
    destruct (Hm' j Hj) as (((y1 & _ & C1') & _) & ((y2 & Hy2 & M3) & _)). destruct (Hkid _ _ Hy2) as (_ & _ & _ & M4 & _). rewrite C1', M3, M4.
    assert (E0 : it_below j = 0%N); [|rewrite E0; lia].
    specialize (Hb' j Hj). inversion Hb' as [G2 T2 items2 Hnd2 Hk2 Hm2 Hb2 EG2 Em2]; subst G2.
    destruct items2 as [|l items2]; auto. exfalso. destruct (proj1 (Hk2 (it_key l)) (or_introl eq_refl)) as (w & ((z & Hz & (t & _ & Hin & _)) & _)).
    destruct (Hkid _ _ Hz) as (_ & _ & E & _). rewrite E in Hin. apply in_set_nil in Hin as [].
  Qed.
End Nested.
(** Where an object of a type that satisfies an inner type condition cannot occur, because an outer one excludes it, the
    fields inside are charged nevertheless: here every execution selects at most two fields, and the analyzer answers 3. *)
Theorem complexity_exact_refuted :
  exists (S : schema) (d : document) (o : operation) n, unique_conditions S d o [] /\
    default_complexity S (ovisit_operation S d o []) = CCost n /\
    forall m, possible_cost S d (not_excluded o []) unit (fun _ _ => 1%N) (fun _ => 1%N) (fun _ _ => tt) (allowed_by_all S)
                (root_node S d o (not_excluded o []) unit tt (fun _ _ => 1%N)) m -> (m < n)%N.
Proof.
  exists ex_nested_schema, ex_nested_doc, ex_nested_op, 3%N. split; [apply unique_check_ok; vm_compute; reflexivity|].
  split; [vm_compute; reflexivity|]. intros m H. apply nested_le in H. lia.
Qed.
Print Assumptions complexity_exact_refuted.

(** ** Documents that do not pass validation *)
(** query { leaf { ... on Query { leaf } } }: the analysis panics in the arena lookup *)
Definition ex_leaf_op : operation := op_query None [] [fld "leaf" [] [SInline (Some (tx "Query")) [] [fld "items" [] []]]].
Theorem complexity_total_refuted :
  exists (S : schema) (d : document) (o : operation) parse_weight twice_ln, unique_conditions S d o [] /\ merged_fields_agree S d o [] twice_ln /\
    relay_complexity S o [] parse_weight twice_ln (ovisit_operation S d o []) = CPanic.
Proof.
  exists ex_relay_schema, {| doc_ops := [ex_leaf_op]; doc_frags := [] |}, ex_leaf_op, ex_weight, ex_ln.
  split; [apply unique_check_ok; vm_compute; reflexivity|]. split; [|vm_compute; reflexivity].
  apply agreeing_fields. intros x y Hx Hy. vm_compute in Hx, Hy. unfold nd_key.
  destruct x as [xa xn xs xd xb ? ? ? ? ?], y as [ya yn ys yd yb ? ? ? ? ?]; cbn [nd_alias nd_name nd_args].
  repeat (destruct Hx as [Hx|Hx]); try (destruct Hx as []; fail); try discriminate Hx; injection Hx; intros; subst;
  repeat (destruct Hy as [Hy|Hy]); try (destruct Hy as []; fail); try discriminate Hy; injection Hy; intros; subst;
  try discriminate; (split; [reflexivity|split; [reflexivity|]]); cbn [map fst]; repeat constructor; intros [].
Qed.
Print Assumptions complexity_total_refuted.
(** With conflicting arguments under one response key the first one written determines the multiplier:
    { items(first: 10) { nodes { id } } items(first: 1000) { nodes { id } } } and the other order *)
Definition ex_conflict_op (a b : Z) : operation :=
  op_query None [] [items_field (VInt a) [fld "nodes" [] [fld "id" [] []]]; items_field (VInt b) [fld "nodes" [] [fld "id" [] []]]].
Theorem complexity_order_independent_refuted :
  exists (S : schema) (o o' : operation) parse_weight twice_ln, Permutation (op_sel o) (op_sel o') /\
    let cost o := relay_complexity S o [] parse_weight twice_ln (ovisit_operation S {| doc_ops := [o]; doc_frags := [] |} o []) in
    exists n n', cost o = CCost n /\ cost o' = CCost n' /\ n <> n'.
Proof.
  exists ex_relay_schema, (ex_conflict_op 10 1000), (ex_conflict_op 1000 10), ex_weight, ex_ln. split; [apply perm_swap|].
  eexists; eexists. split; [vm_compute; reflexivity|]. split; [vm_compute; reflexivity|]. discriminate.
Qed.
Print Assumptions complexity_order_independent_refuted.

(** ** A case of [complexity_exact_partial] *)
(** query { pets { ... on Dog { name } } }: all dogs are pets *)
Definition ex_dogs_op : operation := op_query None [] [fld "pets" [] [SInline (Some (tx "Dog")) [] [fld "name" [] []]]].
Definition ex_dogs_doc : document := {| doc_ops := [ex_dogs_op]; doc_frags := [] |}.
Definition ex_dog : tdef := mk_obj "Dog" ["Pet"] [mk_fd "name" [] (ty_req "String"); mk_fd "friend" [] (ty "Pet")].
Definition ex_pet : tdef := mk_if "Pet" [mk_fd "name" [] (ty_req "String")].
Lemma ex_dogs_nodes x :
  op_node ex_schema ex_dogs_doc ex_dogs_op (not_excluded ex_dogs_op []) unit tt (fun _ _ => 1%N) (fun _ _ => tt) x ->
  (nd_outer x = [] /\ tref_base (fd_type (nd_def x)) = tx "Pet" /\ nd_sub x = [SInline (Some (tx "Dog")) [] [fld "name" [] []]]) \/
  (nd_outer x = [ex_pet] /\ nd_type x = ex_dog /\ nd_sub x = []).
Proof.
  induction 1 as [x (t & Ht & Hin & Hf & _)|x y _ IH (t & Ht & Hin & _)].
  - left. unfold op_sel, ex_dogs_op, op_query in Hin. apply in_set_single in Hin as (_ & _ & Et & Eo & Ef). apply sub_of in Ef as (_ & E2 & _ & _ & E5).
    rewrite Eo, E5. split; auto. split; auto. rewrite Et, E2 in Hf. apply op_root_type in Ht as (n & Hn & Ht). vm_compute in Hn. injection Hn as <-. vm_compute in Ht. injection Ht as <-.
    revert Hf. generalize (nd_def x). intros fd Hf. vm_compute in Hf. injection Hf as <-. reflexivity.
  - right. destruct IH as [(_ & Ed & Es)|(_ & _ & Es)]; rewrite Es in Hin; [|apply in_set_nil in Hin as []].
    rewrite Ed in Ht. vm_compute in Ht. injection Ht as <-. apply in_set_single in Hin as (_ & t1 & Ht1 & Hin). vm_compute in Ht1. injection Ht1 as <-.
    apply in_set_single in Hin as (_ & _ & Et & Eo & Ef). apply sub_of in Ef as (_ & E2 & _ & _ & E5). rewrite Eo, Et, E5. auto.
Qed.
Example ex_exact :
  (forall x T t, op_node ex_schema ex_dogs_doc ex_dogs_op (not_excluded ex_dogs_op []) unit tt (fun _ _ => 1%N) (fun _ _ => tt) x ->
     possible ex_schema (nd_type x) T -> In t (nd_outer x) -> possible ex_schema t T) /\
  default_complexity ex_schema (ovisit_operation ex_schema ex_dogs_doc ex_dogs_op []) = CCost 2.
Proof.
  split; [|vm_compute; reflexivity]. intros x T t Hx Hp Ht. apply ex_dogs_nodes in Hx as [(Eo & _)|(Eo & Et & _)]; rewrite Eo in Ht; [destruct Ht|].
  destruct Ht as [<-|[]]. rewrite Et in Hp. inversion Hp; subst. apply poss_interface; cbn; auto 10.
Qed.
