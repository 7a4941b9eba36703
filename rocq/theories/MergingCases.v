(** Cases which meet the hypotheses of the theorems of MergingProps.v, and cases which show where the results stop. *)
From Coq Require Import Permutation.
From Verif Require Import Base Ast Graph Maps Doc DocSpec DocRulesSpec FragmentCycles FragmentsSpec FragmentCyclesProofs ValueEq ValueEqSpec
  Merging MergingSpec MergingTermination MergingProofs MergingSound MergingComplete MergingProps MergingCheck Examples.
Local Open Scope string_scope.
Local Open Scope list_scope.

Definition in_order : nat -> list (list fctx) -> list (list fctx) := fun _ l => l.
Definition reversed : nat -> list (list fctx) -> list (list fctx) := fun _ l => rev l.
Lemma in_order_ok : some_order in_order.
Proof. intros k l. apply Permutation_refl. Qed.
Lemma reversed_ok : some_order reversed.
Proof. intros k l. apply Permutation_sym, Permutation_rev. Qed.

Definition al a n args sub := SField (Some (tx a)) (tx n) args [] sub.
Definition on c sub := SInline (Some (tx c)) [] sub.
Definition mk_iface n is fs := DInterface {| if_name := tx n; if_desc := None; if_ifaces := map tx is; if_dirs := []; if_fields := fs |}.
Definition tn := mk_fd "__typename" [] (ty_req "String").

(** query { pets(first: 3) { name ...F } pets(first: $first) { ... on Dog { name m: friend { name } } ... on Cat { $n: meows } } dog(id: 1) { ...F } }
    fragment F on Pet { name } *)
Definition ex_merge_doc (n : string) (first : Z) : document :=
  {| doc_ops := [op_query None [] [fld "pets" [(tx "first", VInt 3)] [fld "name" [] []; spr "F"];
                                   fld "pets" [(tx "first", VInt first)] [on "Dog" [fld "name" [] []; al "m" "friend" [] [fld "name" [] []]]; on "Cat" [al n "meows" [] []]];
                                   fld "dog" [(tx "id", VInt 1)] [spr "F"]]];
     doc_frags := [mk_frag "F" "Pet" [fld "name" [] []]] |}.
(** All the hypotheses hold and so do both sides of the equivalences ... *)
Example ex_merging_passes :
  acyclic (ex_merge_doc "n" 3) /\ plain_numbers (ex_merge_doc "n" 3) /\ spreads_simple ex_schema (ex_merge_doc "n" 3) /\ typename_plain ex_schema (ex_merge_doc "n" 3) /\
  document_can_merge ex_schema (ex_merge_doc "n" 3) can_meet /\ merging_errors ex_schema (ex_merge_doc "n" 3) in_order = Some [].
Proof.
  split; [apply acyclic_ok; vm_compute; reflexivity|]. split; [apply flat_doc_ok; vm_compute; reflexivity|].
  split; [apply spread_ok_simple; vm_compute; reflexivity|]. split; [apply typename_ok_plain; vm_compute; reflexivity|].
  split; [apply (mergeable_ok _ _ true 10); vm_compute; reflexivity|vm_compute; reflexivity].
Qed.
(** ... or none, because of arguments or of shapes. *)
Definition error_kinds (r : option (list merge_error)) : option (list nat) :=
  option_map (map (fun e => match e with IncompatibleTypes _ _ _ => 1 | DifferingNames _ _ _ => 2 | DifferingArguments _ _ _ => 3 end)) r.
Example ex_merging_arguments : error_kinds (merging_errors ex_schema (ex_merge_doc "n" 4) in_order) = Some [3].
Proof. vm_compute. reflexivity. Qed.
Example ex_merging_shapes : error_kinds (merging_errors ex_schema (ex_merge_doc "m" 3) in_order) = Some [1].
Proof. vm_compute. reflexivity. Qed.
(** query { dog(id: 1) { n: name } dog(id: 1) { n: friend { name } } } differs in name and shape *)
Example ex_merging_names :
  error_kinds (merging_errors ex_schema
    {| doc_ops := [op_query None [] [fld "pet" [] [al "n" "name" [] []]; fld "pet" [] [on "Dog" [al "n" "friend" [] [fld "name" [] []]]]]]; doc_frags := [] |} in_order) = Some [1; 2].
Proof. vm_compute. reflexivity. Qed.
(** Two fields of the passing document meet: the hypotheses of [merging_executed_partial]. *)
Example ex_merging_executed : exists o x y,
  In o (doc_ops (ex_merge_doc "n" 3)) /\
  executed_at ex_schema (ex_merge_doc "n" 3) o [(tx "name", tx "Dog"); (tx "pets", tx "Query")] x /\
  executed_at ex_schema (ex_merge_doc "n" 3) o [(tx "name", tx "Dog"); (tx "pets", tx "Query")] y /\ sf_parent x <> sf_parent y.
Proof.
  pose (dog := mk_obj "Dog" ["Pet"] [mk_fd "name" [] (ty_req "String"); mk_fd "friend" [] (ty "Pet")]).
  pose (pet := mk_iface "Pet" [] [mk_fd "name" [] (ty_req "String")]). pose (q := nth 10 ex_types dog).
  pose (pets := fun sub => {| sf_alias := None; sf_name := tx "pets"; sf_args := [(tx "first", VInt 3)]; sf_sub := sub;
    sf_def := mk_fd "pets" [mk_iv "first" (ty "Int") (Some (VInt 10))] (TList (ty "Pet") false); sf_parent := q |}).
  pose (nm := fun t => {| sf_alias := None; sf_name := tx "name"; sf_args := []; sf_sub := []; sf_def := mk_fd "name" [] (ty_req "String"); sf_parent := t |}).
  pose (o := hd (op_query None [] []) (doc_ops (ex_merge_doc "n" 3))).
  assert (Hp : forall sub, In (SField None (tx "pets") [(tx "first", VInt 3)] [] sub) (op_sel o) -> executed_at ex_schema (ex_merge_doc "n" 3) o [(tx "pets", tx "Query")] (pets sub)).
  { intros sub Hi. apply (ex_root ex_schema (ex_merge_doc "n" 3) o q (pets sub) (tx "Query")); [reflexivity|eapply col_field; [exact Hi|reflexivity]|exact (poss_object _ _)]. }
  exists o, (nm pet), (nm dog). split; [left; reflexivity|]. split; [|split; [|discriminate]].
  - eapply (ex_below ex_schema (ex_merge_doc "n" 3) o _ (pets [fld "name" [] []; spr "F"]) (nm pet) (tx "Dog")).
    + apply Hp. left; reflexivity.
    + exists pet. split; [reflexivity|]. eapply col_field; [left; reflexivity|reflexivity].
    + eapply (poss_interface ex_schema _ {| ob_name := tx "Dog" |}); [cbn; do 4 right; left; reflexivity|left; reflexivity].
  - eapply (ex_below ex_schema (ex_merge_doc "n" 3) o _ (pets [on "Dog" [fld "name" [] []; al "m" "friend" [] [fld "name" [] []]]; on "Cat" [al "n" "meows" [] []]]) (nm dog) (tx "Dog")).
    + apply Hp. right; left; reflexivity.
    + exists pet. split; [reflexivity|]. eapply col_inline_on; [left; reflexivity|reflexivity|]. eapply col_field; [left; reflexivity|reflexivity].
    + exact (poss_object _ _).
Qed.

(** * Where the rule departs from FieldsInSetCanMerge *)

(** Fields selected from a union are not compared with others: { any { ... on CatOrDog { a: __typename } ... on Cat { a: name } } }. *)
Definition ex_union_schema : schema :=
  {| s_desc := None; s_types := [ mk_obj "Cat" [] [mk_fd "name" [] (ty_req "String")]; mk_obj "Query" [] [mk_fd "any" [] (ty "U")];
       DBuiltin BString; DUnion {| un_name := tx "U"; un_desc := None; un_dirs := []; un_members := [tx "Cat"]; un_fields := [tn] |} ];
     s_ddefs := []; s_query := tx "Query"; s_mutation := None; s_subscription := None; s_dirs := [] |}.
Definition ex_union_op := op_query None [] [fld "any" [] [al "a" "__typename" [] []; on "Cat" [al "a" "name" [] []]]].
Definition ex_union_doc : document := {| doc_ops := [ex_union_op]; doc_frags := [] |}.
Theorem merging_union_refuted : exists S d o p x y,
  acyclic d /\ plain_numbers d /\ spreads_simple S d /\ (forall ord, some_order ord -> merging_errors S d ord = Some []) /\
  In o (doc_ops d) /\ executed_at S d o p x /\ executed_at S d o p y /\ sf_name x <> sf_name y.
Proof.
  pose (q := mk_obj "Query" [] [mk_fd "any" [] (ty "U")]). pose (u := nth 3 (s_types ex_union_schema) q). pose (cat := nth 0 (s_types ex_union_schema) q).
  pose (any := {| sf_alias := None; sf_name := tx "any"; sf_args := []; sf_sub := [al "a" "__typename" [] []; on "Cat" [al "a" "name" [] []]]; sf_def := mk_fd "any" [] (ty "U"); sf_parent := q |}).
  pose (x := {| sf_alias := Some (tx "a"); sf_name := tx "__typename"; sf_args := []; sf_sub := []; sf_def := tn; sf_parent := u |}).
  pose (y := {| sf_alias := Some (tx "a"); sf_name := tx "name"; sf_args := []; sf_sub := []; sf_def := mk_fd "name" [] (ty_req "String"); sf_parent := cat |}).
  exists ex_union_schema, ex_union_doc, ex_union_op, [(tx "a", tx "Cat"); (tx "any", tx "Query")], x, y.
  assert (Ha : acyclic ex_union_doc) by (apply acyclic_ok; vm_compute; reflexivity).
  assert (Hn : plain_numbers ex_union_doc) by (apply flat_doc_ok; vm_compute; reflexivity).
  assert (Hs : spreads_simple ex_union_schema ex_union_doc) by (apply spread_ok_simple; vm_compute; reflexivity).
  split; [auto|]. split; [auto|]. split; [auto|]. split.
  { intros ord Ho. apply merging_exact_partial; auto. apply (mergeable_ok _ _ false 10). vm_compute. reflexivity. }
  split; [left; reflexivity|]. assert (Hroot : executed_at ex_union_schema ex_union_doc ex_union_op [(tx "any", tx "Query")] any).
  { apply (ex_root ex_union_schema ex_union_doc ex_union_op q any (tx "Query")); [reflexivity|eapply col_field; [left; reflexivity|reflexivity]|exact (poss_object _ _)]. }
  split; [|split; [|discriminate]].
  - apply (ex_below ex_union_schema ex_union_doc ex_union_op _ any x (tx "Cat") Hroot).
    + exists u. split; [reflexivity|]. eapply col_field; [left; reflexivity|reflexivity].
    + apply poss_union. left. reflexivity.
  - apply (ex_below ex_union_schema ex_union_doc ex_union_op _ any y (tx "Cat") Hroot).
    + exists u. split; [reflexivity|]. eapply col_inline_on; [right; left; reflexivity|reflexivity|]. eapply col_field; [left; reflexivity|reflexivity].
    + exact (poss_object _ _).
Qed.

(** A fragment's selection set is first checked on the type it is spread on instead of the type of its condition.
    So the rule can fail although all fields can be merged: the field [x] of the interface has type [Int], that of the object
    type has [Int!].  { p { ...F } } fragment F on Obj1 { x ... on Obj1 { x } } *)
Definition ex_covariant_schema : schema :=
  {| s_desc := None; s_types := [ DBuiltin BInt; mk_obj "Obj1" ["P"] [mk_fd "x" [] (ty_req "Int")]; mk_iface "P" [] [mk_fd "x" [] (ty "Int")]; mk_obj "Query" [] [mk_fd "p" [] (ty "P")] ];
     s_ddefs := []; s_query := tx "Query"; s_mutation := None; s_subscription := None; s_dirs := [] |}.
Definition ex_covariant_doc : document :=
  {| doc_ops := [op_query None [] [fld "p" [] [spr "F"]]]; doc_frags := [mk_frag "F" "Obj1" [fld "x" [] []; on "Obj1" [fld "x" [] []]]] |}.
Theorem merging_complete_refuted : exists S d,
  acyclic d /\ plain_numbers d /\ typename_plain S d /\ document_can_merge S d can_meet /\ merging_errors S d in_order <> Some [].
Proof.
  exists ex_covariant_schema, ex_covariant_doc. split; [apply acyclic_ok; vm_compute; reflexivity|]. split; [apply flat_doc_ok; vm_compute; reflexivity|].
  split; [apply typename_ok_plain; vm_compute; reflexivity|]. split; [apply (mergeable_ok _ _ true 10); vm_compute; reflexivity|]. vm_compute. discriminate.
Qed.

(** For the same reason the rule can pass although fields cannot be merged, since the result of the check on the wrong type is
    kept: fragment F on Obj1 { x { x1 { b: u b: w } } ... on I { ... on Obj2 { x { x1 { id } } } } } spread on P. *)
Definition ex_wrong_schema : schema :=
  {| s_desc := None; s_types := [ mk_iface "I" [] [mk_fd "x" [] (ty "X1")]; DBuiltin BInt; mk_obj "N1" ["PN"] [mk_fd "id" [] (ty "Int"); mk_fd "u" [] (ty "Int"); mk_fd "w" [] (ty "Int")];
       mk_obj "Obj1" ["P"; "I"] [mk_fd "x" [] (ty "X1"); mk_fd "y" [] (ty "Int")]; mk_obj "Obj2" ["I"] [mk_fd "x" [] (ty "X1")]; mk_iface "P" [] [mk_fd "x" [] (ty "PX"); mk_fd "y" [] (ty "Int")];
       mk_iface "PN" [] [mk_fd "id" [] (ty "Int")]; mk_iface "PX" [] [mk_fd "x1" [] (ty "PN")]; mk_obj "Query" [] [mk_fd "p" [] (ty "P"); mk_fd "q" [] (ty "Obj1")]; mk_obj "X1" ["PX"] [mk_fd "x1" [] (ty "N1")] ];
     s_ddefs := []; s_query := tx "Query"; s_mutation := None; s_subscription := None; s_dirs := [] |}.
Definition ex_wrong_frag :=
  mk_frag "F" "Obj1" [fld "x" [] [fld "x1" [] [al "b" "u" [] []; al "b" "w" [] []]]; on "I" [on "Obj2" [fld "x" [] [fld "x1" [] [fld "id" [] []]]]]].
Definition ex_wrong_doc (sels : list selection) : document := {| doc_ops := [op_query None [] sels]; doc_frags := [ex_wrong_frag] |}.
Definition ex_wrong_sels := [fld "p" [] [spr "F"]; fld "p" [] [fld "y" [] []]; fld "q" [] [spr "F"]; fld "q" [] [fld "y" [] []]].
Theorem merging_sound_refuted : exists S d o p x y,
  acyclic d /\ plain_numbers d /\ typename_plain S d /\ merging_errors S d in_order = Some [] /\
  In o (doc_ops d) /\ executed_at S d o p x /\ executed_at S d o p y /\ sf_name x <> sf_name y.
Proof.
  pose (S := ex_wrong_schema). pose (d := ex_wrong_doc ex_wrong_sels). pose (o := op_query None [] ex_wrong_sels).
  pose (typ := fun k => nth k (s_types S) (DBuiltin BInt)).
  pose (nd := fun k n t sub => {| sf_alias := None; sf_name := tx n; sf_args := []; sf_sub := sub; sf_def := mk_fd n [] (ty t); sf_parent := typ k |}).
  pose (leaf := fun n => {| sf_alias := Some (tx "b"); sf_name := tx n; sf_args := []; sf_sub := []; sf_def := mk_fd n [] (ty "Int"); sf_parent := typ 2 |}).
  pose (s2 := [al "b" "u" [] []; al "b" "w" [] []]).
  pose (xp := nd 8 "p" "P" [spr "F"]). pose (xx := nd 3 "x" "X1" [fld "x1" [] s2]). pose (x1 := nd 9 "x1" "N1" s2).
  exists S, d, o, [(tx "b", tx "N1"); (tx "x1", tx "X1"); (tx "x", tx "Obj1"); (tx "p", tx "Query")], (leaf "u"), (leaf "w").
  split; [apply acyclic_ok; vm_compute; reflexivity|]. split; [apply flat_doc_ok; vm_compute; reflexivity|]. split; [apply typename_ok_plain; vm_compute; reflexivity|].
  split; [vm_compute; reflexivity|]. split; [left; reflexivity|].
  assert (H1 : executed_at S d o [(tx "p", tx "Query")] xp).
  { apply (ex_root S d o (typ 8) xp (tx "Query")); [reflexivity|eapply col_field; [left; reflexivity|reflexivity]|exact (poss_object _ _)]. }
  assert (H2 : executed_at S d o [(tx "x", tx "Obj1"); (tx "p", tx "Query")] xx).
  { apply (ex_below S d o _ xp xx (tx "Obj1") H1); [|exact (poss_object _ _)]. exists (typ 5). split; [reflexivity|].
    eapply (col_spread S d _ _ (tx "F") [] ex_wrong_frag (typ 3)); [left; reflexivity| |reflexivity|eapply col_field; [left; reflexivity|reflexivity]].
    exists [], []. split; [reflexivity|]. split; [reflexivity|]. intros []. }
  assert (H3 : executed_at S d o [(tx "x1", tx "X1"); (tx "x", tx "Obj1"); (tx "p", tx "Query")] x1).
  { apply (ex_below S d o _ xx x1 (tx "X1") H2); [|exact (poss_object _ _)]. exists (typ 9). split; [reflexivity|]. eapply col_field; [left; reflexivity|reflexivity]. }
  split; [|split; [|discriminate]].
  - apply (ex_below S d o _ x1 (leaf "u") (tx "N1") H3); [|exact (poss_object _ _)]. exists (typ 2). split; [reflexivity|]. eapply col_field; [left; reflexivity|reflexivity].
  - apply (ex_below S d o _ x1 (leaf "w") (tx "N1") H3); [|exact (poss_object _ _)]. exists (typ 2). split; [reflexivity|]. eapply col_field; [right; left; reflexivity|reflexivity].
Qed.
(** And whether it passes depends on the order in which a hash map is visited. *)
Theorem merging_deterministic_refuted : exists S d ord ord',
  some_order ord /\ some_order ord' /\ acyclic d /\ merging_errors S d ord = Some [] /\ merging_errors S d ord' <> Some [].
Proof.
  exists ex_wrong_schema, (ex_wrong_doc ex_wrong_sels), in_order, reversed. split; [exact in_order_ok|]. split; [exact reversed_ok|].
  split; [apply acyclic_ok; vm_compute; reflexivity|]. split; [vm_compute; reflexivity|vm_compute; discriminate].
Qed.

Print Assumptions merging_union_refuted.
Print Assumptions merging_complete_refuted.
Print Assumptions merging_sound_refuted.
Print Assumptions merging_deterministic_refuted.
