(** Decimal rendering of natural numbers and integers ([Display] for [usize], [i32]) and its inverse. *)
From Coq Require Import Decimal DecimalNat DecimalN DecimalPos DecimalFacts.
From Verif Require Import Base.

Fixpoint uint_text (u : Decimal.uint) : text :=
  match u with
  | Decimal.Nil => []
  | Decimal.D0 u => 48%N :: uint_text u | Decimal.D1 u => 49%N :: uint_text u | Decimal.D2 u => 50%N :: uint_text u
  | Decimal.D3 u => 51%N :: uint_text u | Decimal.D4 u => 52%N :: uint_text u | Decimal.D5 u => 53%N :: uint_text u
  | Decimal.D6 u => 54%N :: uint_text u | Decimal.D7 u => 55%N :: uint_text u | Decimal.D8 u => 56%N :: uint_text u
  | Decimal.D9 u => 57%N :: uint_text u
  end.
Definition show_nat (n : nat) : text := uint_text (Nat.to_uint n).
Definition show_N (n : N) : text := uint_text (N.to_uint n).

Definition is_digit (c : N) : bool := N.leb 48 c && N.leb c 57.
Definition digit_value (c : N) : N := (c - 48)%N.
(** the value denoted by a sequence of decimal digits *)
Definition digits_value (l : text) : N := fold_left (fun acc c => (acc * 10 + digit_value c)%N) l 0%N.

Lemma uint_text_digits u : Forall (fun c => is_digit c = true) (uint_text u).
Proof. induction u; cbn; constructor; auto. Qed.
Lemma uint_text_inj u v : uint_text u = uint_text v -> u = v.
Proof.
  revert v; induction u; destruct v; cbn; intros H; try discriminate; try reflexivity; injection H as H; f_equal; auto.
Qed.
Lemma show_nat_inj a b : show_nat a = show_nat b -> a = b.
Proof. intros H. apply uint_text_inj in H. rewrite <- (DecimalNat.Unsigned.of_to a), H. apply DecimalNat.Unsigned.of_to. Qed.

(** ** Reading a rendered number *)
Lemma digits_value_acc u : forall acc, Npos (Pos.of_uint_acc u acc) = fold_left (fun a c => (a * 10 + digit_value c)%N) (uint_text u) (Npos acc).
Proof.
  induction u as [|u IH|u IH|u IH|u IH|u IH|u IH|u IH|u IH|u IH|u IH]; intros acc; [reflexivity|..]; cbn [Pos.of_uint_acc uint_text fold_left]; rewrite IH; f_equal;
    unfold digit_value; match goal with |- context [(?a - 48)%N] => let v := eval vm_compute in (a - 48)%N in change (a - 48)%N with v end; lia.
Qed.
Lemma digits_value_of_uint u : digits_value (uint_text u) = N.of_uint u.
Proof.
  unfold N.of_uint, digits_value. induction u as [|u IH|u IH|u IH|u IH|u IH|u IH|u IH|u IH|u IH|u IH]; [reflexivity|exact IH|..];
    cbn [Pos.of_uint uint_text fold_left]; rewrite digits_value_acc; reflexivity.
Qed.
Lemma digits_value_show n : digits_value (show_N n) = n.
Proof. unfold show_N. rewrite digits_value_of_uint. apply DecimalN.Unsigned.of_to. Qed.
Lemma show_N_shape n : show_N n = [48%N] \/ exists c l, show_N n = c :: l /\ (49 <= c <= 57)%N.
Proof.
  unfold show_N. assert (E : N.to_uint n = Decimal.unorm (N.to_uint n)).
  { rewrite <- DecimalN.Unsigned.to_of, DecimalN.Unsigned.of_to. reflexivity. }
  rewrite E. unfold Decimal.unorm. destruct (Decimal.nzhead (N.to_uint n)) as [|u|u|u|u|u|u|u|u|u|u] eqn:E2; cbn [uint_text].
  - left. reflexivity.
  - exfalso. revert E2. apply nzhead_nonzero.
  - right. eexists _, _. split; [reflexivity|lia].
  - right. eexists _, _. split; [reflexivity|lia].
  - right. eexists _, _. split; [reflexivity|lia].
  - right. eexists _, _. split; [reflexivity|lia].
  - right. eexists _, _. split; [reflexivity|lia].
  - right. eexists _, _. split; [reflexivity|lia].
  - right. eexists _, _. split; [reflexivity|lia].
  - right. eexists _, _. split; [reflexivity|lia].
  - right. eexists _, _. split; [reflexivity|lia].
Qed.
