(** Property C19: comparing values. *)
From Coq Require Import String Permutation.
From Verif Require Import Base Ast ValueEq ValueEqSpec ValueEqProofs.
Local Open Scope string_scope.
Local Open Scope list_scope.

(** Two values compare equal exactly when they are of the same kind with the same content: lists element by element, objects
    by key (the last value of a key counts), floats as numbers. *)
Theorem c19_equal_iff : forall v w, f64s v -> f64s w -> value_eqb v w = true <-> same_value v w.
Proof. exact value_eqb_same. Qed.
(** an equivalence *)
Theorem c19_reflexive : forall v, f64s v -> no_nan v -> value_eqb v v = true.
Proof. intros v H N. apply value_eqb_same; auto using same_refl. Qed.
Theorem c19_symmetric : forall v w, f64s v -> f64s w -> value_eqb v w = value_eqb w v.
Proof.
  intros v w Hv Hw. assert (K : forall a b, f64s a -> f64s b -> value_eqb a b = true -> value_eqb b a = true).
  { intros a b Ha Hb H. apply value_eqb_same in H; auto. apply value_eqb_same; auto using same_sym. }
  destruct (value_eqb v w) eqn:E, (value_eqb w v) eqn:E'; auto; [apply K in E | apply K in E']; auto; congruence.
Qed.
Theorem c19_transitive : forall v w u, f64s v -> f64s w -> f64s u -> value_eqb v w = true -> value_eqb w u = true -> value_eqb v u = true.
Proof. intros v w u Hv Hw Hu H H'. apply value_eqb_same in H; auto. apply value_eqb_same in H'; auto. apply value_eqb_same; eauto using same_trans. Qed.
(** If no key is given twice, values that are equal are those that differ only in the order of object entries (and in the sign
    of zeros): the order does not matter and every other difference is told. *)
Theorem c19_exactly_rearranged : forall v w, f64s v -> f64s w -> keys_once v -> keys_once w -> value_eqb v w = true <-> rearranged v w /\ no_nan v.
Proof.
  intros v w Hv Hw Kv Kw. rewrite value_eqb_same by assumption. split.
  - intros H. split; [now apply same_rearranged | now apply (same_no_nan v w)].
  - intros (R & N). now apply rearranged_same.
Qed.
(** the arguments of a field or directive: the same, for lists of arguments *)
Theorem c19_arguments : forall a b, f64s (VObj a) -> f64s (VObj b) -> keys_once (VObj a) -> keys_once (VObj b) -> no_nan (VObj a) ->
  arguments_equivalent a b = true <-> exists p, Forall2 (fun x y => fst x = fst y /\ rearranged (snd x) (snd y)) a p /\ Permutation p b.
Proof.
  intros a b Ha Hb Ka Kb N. rewrite arguments_eqb, c19_exactly_rearranged by assumption. split.
  - intros (R & _). inversion R as [| | | | | | | |? p ? F P]; subst. eauto.
  - intros (p & F & P). split; [econstructor; eauto | exact N].
Qed.
Theorem c19_argument_order : forall a b, f64s (VObj a) -> keys_once (VObj a) -> no_nan (VObj a) -> Permutation a b -> arguments_equivalent a b = true.
Proof.
  intros a b Ha Ka N P. rewrite arguments_eqb. apply value_eqb_same; auto.
  - inversion_clear Ha as [| | | | | | | |? F]. constructor. now rewrite <- P.
  - inversion_clear Ka as [| | | | | | | |? ND _]. inversion_clear N as [| | | | | | | |? F].
    assert (ND' : NoDup (map fst b)) by (eapply Permutation_NoDup; [apply Permutation_map; exact P | exact ND]).
    constructor.
    + intros k v E. exists v. apply assoc_last_In in E. split; [|apply same_refl; rewrite Forall_forall in F; exact (F _ E)]. apply assoc_NoDup'; [now apply (Permutation_in _ P) | exact ND'].
    + intros k v E. exists v. apply assoc_last_In in E. apply assoc_NoDup'; [now apply (Permutation_in _ (Permutation_sym P)) | exact ND].
Qed.
(** the exception of C19's statement: NaN (which no literal gives) is not equal to itself *)
Theorem c19_nan : forall b, f64 b -> f64_number b = NaN -> value_eqb (VFloat b) (VFloat b) = false.
Proof.
  intros b H E. destruct (value_eqb (VFloat b) (VFloat b)) eqn:Q; [|reflexivity]. apply value_eqb_same in Q; try now constructor. inversion Q. congruence.
Qed.

Definition one_half := 4602678819172646912%N.
Definition left_value := VObj [(tx "a", VList [VInt 1; VFloat one_half; VVar (tx "x")]); (tx "b", VObj [(tx "c", VStr (tx "s")); (tx "d", VEnum (tx "E")); (tx "z", VFloat 0)])].
Definition right_value := VObj [(tx "b", VObj [(tx "z", VFloat 9223372036854775808); (tx "d", VEnum (tx "E")); (tx "c", VStr (tx "s"))]); (tx "a", VList [VInt 1; VFloat one_half; VVar (tx "x")])].
Example c19_case : f64s left_value /\ f64s right_value /\ keys_once left_value /\ no_nan left_value /\ value_eqb left_value right_value = true /\
  value_eqb left_value (VObj [(tx "a", VNull)]) = false /\ value_eqb (VStr (tx "E")) (VEnum (tx "E")) = false /\ value_eqb (VInt 1) (VFloat 4607182418800017408) = false /\
  f64_number 1 = Finite 1 /\ f64_number 4607182418800017408 = Finite (2 ^ 1074) /\ f64_number 9221120237041090560 = NaN.
Proof.
  assert (Z : f64 0 /\ f64 one_half /\ f64 9223372036854775808) by (repeat split).
  assert (Y : f64_number 0 <> NaN /\ f64_number one_half <> NaN) by (split; discriminate).
  destruct Z as (Z1 & Z2 & Z3). destruct Y as (Y1 & Y2).
  split; [unfold left_value; repeat constructor; assumption|]. split; [unfold right_value; repeat constructor; assumption|].
  split; [|split; [unfold left_value; repeat constructor; assumption | repeat split; vm_compute; reflexivity]].
  unfold left_value. repeat constructor; cbn; intuition discriminate.
Qed.
Print Assumptions c19_equal_iff. Print Assumptions c19_reflexive. Print Assumptions c19_symmetric. Print Assumptions c19_transitive. Print Assumptions c19_exactly_rearranged.
Print Assumptions c19_arguments. Print Assumptions c19_argument_order. Print Assumptions c19_nan.
