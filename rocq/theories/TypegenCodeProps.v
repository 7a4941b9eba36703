(** C54, and C56 for operations and fragments. *)
From Verif Require Import Base Ast Maps Graph Doc DocSpec DocRulesSpec FragmentsSpec DocProofs DocRules
                          FragmentCycles FragmentCyclesProofs Json Typegen TypegenDe TypegenSpec TypegenProofs TypegenBorrow
                          TypegenShapes TypegenProps TypegenCompiles.
Local Open Scope string_scope.
Local Open Scope list_scope.

(** C54. The code generated for an accepted document compiles. Missing from the full claim: names that clash after
    conversion or (miniserde) with names that the generated code uses, fragments that only spread another fragment, and (serde) __typename inside a variant; see the refutations in
    TypegenCases.v. *)
Theorem generated_code_compiles_partial : forall S d borrow scalar_borrows cod pascal snake types,
  resolved S -> well_parsed d -> validated S d ->
  convert S borrow scalar_borrows d = Built types ->
  names_fit S d pascal snake -> no_renamed_fragments d ->
  (cod = Serde -> no_typename_in_variants S d) -> (cod = Miniserde -> names_fit_miniserde S d pascal snake) ->
  compiles pascal snake cod types.
Proof.
  intros S d borrow sb cod pascal snake types HR HW HV HC HN Hnr Hty Hmi.
  destruct (convert_parts S borrow sb d types HC) as (frags & flags & ops & HP).
  eapply code_compiles; eauto.
Qed.
Print Assumptions generated_code_compiles_partial.

(** C56 for operations and fragments. A type has a lifetime exactly if borrowed data is selected. *)
Theorem lifetimes_of_operations_exact : forall S d borrow scalar_borrows types,
  resolved S -> well_parsed d -> validated S d ->
  convert S borrow scalar_borrows d = Built types ->
  forall i o t, nth_error (doc_ops d) i = Some o -> root_type S (op_type o) t ->
  exists e, nth_error types i = Some e /\ (borrows e = true <-> selects_borrowed S d borrow scalar_borrows t (op_sel o)).
Proof.
  intros S d borrow sb types HR HW HV HC i o t Ho Hr.
  destruct (convert_parts S borrow sb d types HC) as (frags & flags & ops & HP).
  pose proof (validated_ok S d HR HW HV) as Hok. pose proof (validated_spreads S d HV) as Hspr.
  assert (He : exists e, nth_error ops i = Some e /\ build_operation S borrow sb o = Built e).
  { pose proof (pt_ops _ _ _ _ _ _ _ _ HP) as HF. revert i Ho. clear HP. induction HF as [|x y l l' H HF IH]; intros i Ho; [destruct i; discriminate|].
    destruct i; cbn in *; [injection Ho as ->; eauto|eauto]. }
  destruct He as (e & He & HB). exists (update flags e). split.
  - rewrite (pt_types _ _ _ _ _ _ _ _ HP), nth_error_map, nth_error_app1, He; auto. apply nth_error_Some. congruence.
  - destruct (operation_set S borrow sb d HR Hok i o e Ho HB) as (t' & Hr' & Hset & Hc & Hs & HB').
    rewrite (DocTypingProofs.root_type_fun _ _ _ _ Hr Hr') in *. eapply borrows_exact; eauto.
Qed.
Print Assumptions lifetimes_of_operations_exact.
Theorem lifetimes_of_fragments_exact : forall S d borrow scalar_borrows types,
  resolved S -> well_parsed d -> validated S d ->
  convert S borrow scalar_borrows d = Built types ->
  forall n f t e, defines d n f -> get_type S (fr_cond f) = Some t -> In (n, e) (items types) ->
  (borrows e = true <-> selects_borrowed S d borrow scalar_borrows t (fr_sel f)).
Proof.
  intros S d borrow sb types HR HW HV HC n f t e Hd Ht Hi.
  destruct (convert_parts S borrow sb d types HC) as (frags & flags & ops & HP).
  pose proof (validated_ok S d HR HW HV) as Hok. pose proof (validated_spreads S d HV) as Hspr.
  edestruct item_fragment as (e0 & HB & ->); eauto.
  destruct (fragment_set S d Hok n f t Hd Ht) as (r & Hset & Hc & Hs).
  unfold build_fragment in HB. rewrite Ht in HB. eapply borrows_exact; eauto.
Qed.
Print Assumptions lifetimes_of_fragments_exact.
(** A reference to a fragment's type has a lifetime exactly if the type does. *)
Theorem references_agree : forall S d borrow scalar_borrows types,
  resolved S -> well_parsed d -> validated S d ->
  convert S borrow scalar_borrows d = Built types ->
  forall e n b e', In e types -> inside e (ERef n b) -> In (n, e') (items types) -> b = borrows e'.
Proof.
  intros S d borrow sb types HR HW HV HC e n b e' He Hin Hi.
  pose proof (validated_ok S d HR HW HV) as Hok. pose proof (validated_spreads S d HV) as Hspr.
  destruct (convert_parts S borrow sb d types HC) as (frags & flags & ops & HP).
  destruct (refs_exact S borrow sb d HR Hok Hspr types frags flags ops HP e n b He Hin) as (f & t & Hd & Ht & _ & Hb).
  pose proof (lifetimes_of_fragments_exact S d borrow sb types HR HW HV HC n f t e' Hd Ht Hi) as Hb'.
  destruct b, (borrows e'); auto; [symmetry; apply Hb', Hb; auto|apply Hb, Hb'; auto].
Qed.
Print Assumptions references_agree.
