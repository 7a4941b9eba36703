(** Writing and reading floats. *)
From Coq Require Import String Lia.
From Verif Require Import Base Ast Decimal10 LexerSpec ValueEq ValueEqSpec ValueEqProofs FloatPrinter FloatSpec.
Local Open Scope list_scope.
Local Open Scope N_scope.

Lemma unit_pos : 0 < f64_unit. Proof. reflexivity. Qed.
Lemma one_unit : one = Z.of_N f64_unit. Proof. reflexivity. Qed.
Lemma finite_number b : f64_exponent b <> 2047 -> f64_number b = Finite (if f64_negative b then - Z.of_N (f64_magnitude b) else Z.of_N (f64_magnitude b)).
Proof. intros E. unfold f64_number. fold (f64_exponent b). apply N.eqb_neq in E. rewrite E. reflexivity. Qed.
Lemma number_finite b z : f64_number b = Finite z -> f64_exponent b <> 2047 /\ z = (if f64_negative b then - Z.of_N (f64_magnitude b) else Z.of_N (f64_magnitude b))%Z.
Proof.
  intros H. assert (E : f64_exponent b <> 2047).
  { intros E. unfold f64_number in H. fold (f64_exponent b) in H. rewrite E, N.eqb_refl in H. destruct (N.eqb _ 0); discriminate. }
  split; [exact E|]. rewrite (finite_number b E) in H. congruence.
Qed.
Lemma abs_magnitude b z : f64_number b = Finite z -> Z.abs z = Z.of_N (f64_magnitude b).
Proof. intros H. apply number_finite in H as (_ & ->). destruct (f64_negative b); lia. Qed.
Lemma rem_magnitude b z : f64_number b = Finite z -> Z.abs (Z.rem z one) = Z.of_N (f64_magnitude b mod f64_unit).
Proof.
  intros H. rewrite <- Z.rem_abs by (rewrite one_unit; pose proof unit_pos; lia). rewrite (abs_magnitude b z H), one_unit. rewrite (Z.abs_eq (Z.of_N f64_unit)) by lia.
  now rewrite N2Z.inj_mod, Z.rem_mod_nonneg by (pose proof unit_pos; lia).
Qed.
Lemma rem_zero b z : f64_number b = Finite z -> (Z.rem z one = 0)%Z <-> f64_magnitude b mod f64_unit = 0.
Proof. intros H. pose proof (rem_magnitude b z H). lia. Qed.

(** the magnitude is a multiple of its last place *)
Lemma multiple b k : k <= f64_exponent b - 1 -> exists q, f64_magnitude b = q * 2 ^ k \/ f64_exponent b = 0.
Proof.
  intros H. unfold f64_magnitude. destruct (N.eqb_spec (f64_exponent b) 0) as [E|E]; [exists 0; auto|].
  exists ((2 ^ 52 + f64_fraction b) * 2 ^ (f64_exponent b - 1 - k)). left. rewrite <- N.mul_assoc, <- N.pow_add_r. f_equal. f_equal. lia.
Qed.
Lemma magnitude_below b k : f64_exponent b <= k -> f64_magnitude b < 2 ^ (52 + k).
Proof.
  intros H. eapply N.lt_le_trans; [apply (magnitude_lt b)|]. fold (f64_exponent b). change (ex b) with (f64_exponent b). rewrite N.pow_add_r. apply N.mul_le_mono_l. apply N.pow_le_mono_r; lia.
Qed.
Lemma mod_multiple q k : k <= 1074 -> exists r, (q * 2 ^ k) mod f64_unit = r * 2 ^ k.
Proof.
  intros H. replace f64_unit with (2 ^ (1074 - k) * 2 ^ k) by (unfold f64_unit; rewrite <- N.pow_add_r; f_equal; lia).
  rewrite N.mul_mod_distr_r by (apply N.pow_nonzero; lia). eauto.
Qed.
(** no float has a fraction between 10^-10 and the float 1e-10 *)
Lemma tiny_mantissa : f64_magnitude f64_1e_10 = 7737125245533627 * 2 ^ 988. Proof. vm_compute. reflexivity. Qed.
Lemma tiny_exact b : f64_magnitude b mod f64_unit < f64_magnitude f64_1e_10 <-> 10 ^ 10 * (f64_magnitude b mod f64_unit) < f64_unit.
Proof.
  assert (T1 : f64_unit <= 10 ^ 10 * f64_magnitude f64_1e_10) by (vm_compute; discriminate).
  split; [|intros H; apply N.nle_gt; intros L; nia]. intros H.
  destruct (N.le_gt_cases (f64_exponent b) 988) as [L|L].
  - pose proof (magnitude_below b 988 L) as M. assert (R : f64_magnitude b mod f64_unit <= f64_magnitude b) by (apply N.mod_le; pose proof unit_pos; lia).
    assert (T : 10 ^ 10 * 2 ^ (52 + 988) < f64_unit) by reflexivity. nia.
  - destruct (multiple b 988) as (q & [E|E]); [lia| |lia]. rewrite E in *. destruct (mod_multiple q 988) as (r & Er); [lia|]. rewrite Er in *.
    rewrite tiny_mantissa in H. assert (R : r < 7737125245533627) by (apply (N.mul_lt_mono_pos_r (2 ^ 988)); [reflexivity|exact H]).
    assert (T : 10 ^ 10 * (7737125245533626 * 2 ^ 988) < f64_unit) by reflexivity.
    assert (X : r * 2 ^ 988 <= 7737125245533626 * 2 ^ 988) by (apply N.mul_le_mono_r; lia). nia.
Qed.
Lemma near_integer_iff b : near_integer b = true <-> f64_exponent b <> 2047 /\ 10 ^ 10 * (f64_magnitude b mod f64_unit) < f64_unit.
Proof. unfold near_integer. rewrite andb_true_iff, negb_true_iff, N.eqb_neq, N.ltb_lt. now rewrite tiny_exact. Qed.
Lemma near_integer_false b z : f64_number b = Finite z -> near_integer b = false <-> (one <= 10 ^ 10 * Z.abs (Z.rem z one))%Z.
Proof.
  intros H. rewrite (rem_magnitude b z H), one_unit. change (10 ^ 10)%Z with (Z.of_N (10 ^ 10)). rewrite <- N2Z.inj_mul, <- N2Z.inj_le. apply number_finite in H as (E & _).
  destruct (near_integer b) eqn:K.
  - apply near_integer_iff in K as (_ & K). split; [discriminate|]. lia.
  - split; [|reflexivity]. intros _. apply N.nlt_ge. intros L. enough (near_integer b = true) by congruence. apply near_integer_iff. auto.
Qed.
Lemma tenths_near b : near_integer b = true -> print_tenths b = sign_text b ++ show_N (f64_magnitude b / f64_unit) ++ [46; 48].
Proof.
  intros H. apply near_integer_iff in H as (_ & H). unfold print_tenths. pose proof unit_pos as P. pose proof (N.div_mod (f64_magnitude b) f64_unit ltac:(lia)) as D.
  set (q := f64_magnitude b / f64_unit) in *. set (r := f64_magnitude b mod f64_unit) in *. clearbody q r. rewrite D.
  replace (20 * (f64_unit * q + r) + f64_unit) with ((20 * r + f64_unit) + (10 * q) * (2 * f64_unit)) by lia.
  rewrite N.div_add by lia. rewrite (N.div_small (20 * r + f64_unit)) by lia. rewrite N.add_0_l. rewrite (N.mul_comm 10 q), N.div_mul, N.mod_mul by lia. reflexivity.
Qed.

(** the float of an integer below 2^53 *)
Definition of_integer (negative : bool) (n : N) : N :=
  (if negative then 2 ^ 63 else 0) + (if N.eqb n 0 then 0 else (N.log2 n + 1023) * 2 ^ 52 + (n - 2 ^ N.log2 n) * 2 ^ (52 - N.log2 n)).
Lemma fields (s : bool) e f : e < 2 ^ 11 -> f < 2 ^ 52 -> let b := (if s then 2 ^ 63 else 0) + (e * 2 ^ 52 + f) in
  f64 b /\ f64_negative b = s /\ f64_exponent b = e /\ f64_fraction b = f.
Proof.
  intros He Hf b. unfold f64, f64_negative, f64_exponent, f64_fraction.
  assert (D : b = ((if s then 2 ^ 11 else 0) + e) * 2 ^ 52 + f) by (unfold b; destruct s; change (2 ^ 63) with (2 ^ 11 * 2 ^ 52); lia).
  assert (E1 : b / 2 ^ 52 = (if s then 2 ^ 11 else 0) + e) by (rewrite D, N.div_add_l by lia; rewrite N.div_small by exact Hf; lia).
  assert (E2 : b mod 2 ^ 52 = f) by (rewrite D, N.add_comm, N.mod_add by lia; now apply N.mod_small).
  rewrite E1, E2. repeat split.
  - rewrite D. change (2 ^ 64) with (2 ^ 12 * 2 ^ 52). change (2 ^ 12) with (2 * 2 ^ 11). destruct s; nia.
  - rewrite D. change (2 ^ 63) with (2 ^ 11 * 2 ^ 52). destruct s; [apply N.leb_le; lia|]. apply N.leb_gt. nia.
  - destruct s; [|now apply N.mod_small]. change (2 ^ 11 + e) with (2 ^ 11 + e). rewrite N.add_comm. rewrite <- (N.mul_1_l (2 ^ 11)) at 1. rewrite N.mod_add by lia. now apply N.mod_small.
Qed.
Lemma of_integer_ok s n : n < 2 ^ 53 -> let b := of_integer s n in f64 b /\ f64_negative b = s /\ f64_exponent b <> 2047 /\ f64_magnitude b = n * f64_unit.
Proof.
  intros Hn b. unfold b, of_integer. destruct (N.eqb_spec n 0) as [->|E].
  - destruct (fields s 0 0) as (H1 & H2 & H3 & H4); [reflexivity|reflexivity|]. change (0 * 2 ^ 52 + 0) with 0 in *. unfold f64_magnitude. rewrite H3, H4. repeat split; auto. discriminate.
  - assert (L : 2 ^ N.log2 n <= n < 2 ^ N.succ (N.log2 n)) by (apply N.log2_spec; lia).
    assert (K : N.log2 n <= 52). { apply N.lt_succ_r. apply N.log2_lt_pow2; [lia|exact Hn]. }
    set (k := N.log2 n) in *. clearbody k. rewrite N.pow_succ_r' in L. assert (P : 2 ^ k * 2 ^ (52 - k) = 2 ^ 52) by (rewrite <- N.pow_add_r; f_equal; lia).
    assert (Q : 0 < 2 ^ (52 - k)) by (apply N.neq_0_lt_0, N.pow_nonzero; lia).
    assert (F : (n - 2 ^ k) * 2 ^ (52 - k) < 2 ^ 52) by (rewrite <- P; apply N.mul_lt_mono_pos_r; lia).
    destruct (fields s (k + 1023) ((n - 2 ^ k) * 2 ^ (52 - k))) as (H1 & H2 & H3 & H4); [change (2 ^ 11) with 2048; lia|exact F|]. repeat split; auto; [rewrite H3; lia|].
    unfold f64_magnitude. rewrite H3, H4. destruct (N.eqb_spec (k + 1023) 0); [lia|].
    replace (2 ^ 52 + (n - 2 ^ k) * 2 ^ (52 - k)) with (n * 2 ^ (52 - k)) by (rewrite <- P, <- N.mul_add_distr_r; f_equal; lia).
    rewrite <- N.mul_assoc, <- N.pow_add_r. unfold f64_unit. f_equal. f_equal. lia.
Qed.
Lemma fraction_small b : f64_magnitude b mod f64_unit <> 0 -> f64_magnitude b / f64_unit < 2 ^ 53.
Proof.
  intros H. assert (L : f64_exponent b <= 1074).
  { apply N.nlt_ge. intros L. destruct (multiple b 1074) as (q & [E|E]); [lia| |lia]. apply H. rewrite E. apply N.mod_mul. discriminate. }
  pose proof (magnitude_below b 1074 L) as M. apply N.div_lt_upper_bound; [discriminate|]. eapply N.lt_trans; [exact M|reflexivity].
Qed.

Lemma show_unsigned n : unsigned_int (show_N n).
Proof.
  unfold unsigned_int. destruct (show_N_shape n) as [E|(c & l & E & H)]; [now left|right]. exists c, l. split; [exact E|split; [exact H|]].
  pose proof (uint_text_digits (N.to_uint n)) as D. fold (show_N n) in D. rewrite E in D. inversion D; subst. eapply Forall_impl; [|eassumption].
  intros a Ha. unfold is_digit in Ha. apply andb_true_iff in Ha as (A1 & A2). apply N.leb_le in A1, A2. unfold digit. lia.
Qed.
Lemma digits_value_snoc l c : digits_value (l ++ [c]) = digits_value l * 10 + digit_value c.
Proof. unfold digits_value. now rewrite fold_left_app. Qed.
Lemma integer_literal b n : float_literal (sign_text b ++ show_N n ++ [46; 48]).
Proof.
  exists (sign_text b ++ show_N n), [46; 48], []. rewrite app_nil_r, <- app_assoc. split; [reflexivity|]. split.
  - unfold sign_text. destruct (f64_negative b); [right; eexists; split; [reflexivity|]|left]; apply show_unsigned.
  - left. split; [|reflexivity]. exists [48]. split; [reflexivity|]. split; [discriminate|]. constructor; [unfold digit; lia|constructor].
Qed.
Lemma integer_exactly b n : f64_exponent b <> 2047 -> f64_magnitude b = n * f64_unit -> writes_exactly (sign_text b ++ show_N n ++ [46; 48]) b.
Proof.
  intros E M. exists (f64_negative b), (show_N n), [48], (if f64_negative b then - Z.of_N (f64_magnitude b) else Z.of_N (f64_magnitude b))%Z.
  split; [reflexivity|]. split; [apply show_unsigned|]. split; [split; [discriminate|]; constructor; [unfold digit; lia|constructor]|]. split; [reflexivity|]. split; [now apply finite_number|].
  rewrite digits_value_snoc, digits_value_show. change (digit_value 48) with 0. rewrite N.add_0_r. cbn [length]. change (10 ^ Z.of_nat 1)%Z with 10%Z.
  rewrite M, one_unit. destruct (f64_negative b); lia.
Qed.
Lemma literal_plain l : float_literal l -> exists c r, l = c :: r /\ (c = 45 \/ digit c) /\ (c = 45 -> exists c' r', r = c' :: r' /\ digit c').
Proof.
  intros (i & f & e & -> & Hi & _).
  assert (U : forall x, unsigned_int x -> exists c r, x = c :: r /\ digit c).
  { intros x [->|(c & l' & -> & H & _)]; eexists _, _; (split; [reflexivity|]); unfold digit; lia. }
  destruct Hi as [Hi|(i' & -> & Hi)]; destruct (U _ Hi) as (c & r & -> & D).
  - exists c, (r ++ f ++ e). split; [reflexivity|]. split; [auto|]. intros ->. unfold digit in D. lia.
  - exists 45, ((c :: r) ++ f ++ e). split; [reflexivity|]. split; [auto|]. intros _. exists c, (r ++ f ++ e). auto.
Qed.

Section Platform.
  Variables (parse_f64 : text -> option N) (shortest : N -> text).
  Hypothesis PL : platform parse_f64 shortest.
  Notation print_float := (print_float shortest).

  (** what the text of a near integer is read as *)
  Lemma near_read b : f64 b -> near_integer b = true -> exists b', f64 b' /\ f64_exponent b' <> 2047 /\ f64_negative b' = f64_negative b /\
    f64_magnitude b' = f64_magnitude b / f64_unit * f64_unit /\ float_literal (print_float b) /\ parse_f64 (print_float b) = Some b'.
  Proof using PL.
    intros F K. unfold FloatPrinter.print_float. rewrite K, (tenths_near b K). set (q := f64_magnitude b / f64_unit).
    assert (X : exists b', f64 b' /\ f64_exponent b' <> 2047 /\ f64_negative b' = f64_negative b /\ f64_magnitude b' = q * f64_unit).
    { destruct (N.eq_dec (f64_magnitude b mod f64_unit) 0) as [Z|Z].
      - exists b. apply near_integer_iff in K as (E & _). split; [exact F|split; [exact E|split; [reflexivity|]]]. pose proof (N.div_mod (f64_magnitude b) f64_unit ltac:(discriminate)) as D. fold q in D. lia.
      - destruct (of_integer_ok (f64_negative b) q (fraction_small b Z)) as (H1 & H2 & H3 & H4). eauto. }
    destruct X as (b' & F' & E' & N' & M'). exists b'. split; [exact F'|split; [exact E'|split; [exact N'|split; [exact M'|split; [apply integer_literal|]]]]].
    apply (pl_exact _ _ PL); [exact F'|]. replace (sign_text b) with (sign_text b') by (unfold sign_text; now rewrite N'). now apply integer_exactly.
  Qed.
  Lemma survives_iff b : f64 b -> (float_literal (print_float b) /\ parse_f64 (print_float b) = Some b) <-> printable b.
  Proof using PL.
    intros F. destruct (N.eq_dec (f64_exponent b) 2047) as [E|E].
    - split.
      + intros (L & _). exfalso. unfold FloatPrinter.print_float in L. replace (near_integer b) with false in L by (unfold near_integer; now rewrite E).
        unfold display_float in L. rewrite E, N.eqb_refl in L. apply literal_plain in L as (c & r & E1 & D & D'). unfold sign_text in E1.
        destruct (N.eqb _ 0); [destruct (f64_negative b)|]; injection E1 as <- <-; destruct D as [D|D]; try discriminate D; try (unfold digit in D; cbn in D; lia).
        destruct (D' eq_refl) as (c' & r' & E2 & D2). injection E2 as <- _. unfold digit in D2. cbn in D2. lia.
      + intros (z & H & _). apply number_finite in H as (H & _). contradiction.
    - pose proof (finite_number b E) as Hz. set (z := if f64_negative b then _ else _) in Hz. clearbody z. destruct (near_integer b) eqn:K.
      + destruct (near_read b F K) as (b' & F' & E' & N' & M' & L & R). split.
        * intros (_ & R'). exists z. split; [exact Hz|]. left. apply (rem_zero b z Hz). assert (b' = b) as -> by congruence. rewrite M'. apply N.mod_mul. discriminate.
        * intros (z' & Hz' & [H|H]); assert (z' = z) as -> by congruence.
          { split; [exact L|]. rewrite R. f_equal. apply (rem_zero b z Hz) in H. apply same_parts; auto; try exact N';
            destruct (magnitude_inj b' b) as (P1 & P2); auto; change (f64_magnitude b' = f64_magnitude b); rewrite M'; pose proof (N.div_mod (f64_magnitude b) f64_unit ltac:(discriminate)); lia. }
          { apply (near_integer_false b z Hz) in H. congruence. }
      + pose proof K as K'. apply (near_integer_false b z Hz) in K'. split; [intros _; exists z; auto|]. intros _. unfold FloatPrinter.print_float. rewrite K. unfold display_float.
        apply N.eqb_neq in E. rewrite E. apply (pl_shortest _ _ PL b z F Hz). intros Z. rewrite Z in K'. cbn in K'. unfold one in K'. assert (0 < 2 ^ 1074)%Z by reflexivity. lia.
  Qed.
End Platform.
