(** C77: floats survive printing and parsing exactly if they are integers or not too close to one. *)
From Coq Require Import String Lia Permutation.
From Verif Require Import Base Ast Decimal10 Lexer LexerSpec LexerProps Parser ParserSpec Printer RoundTripSpec RoundTripProofs ParserProps ValueEq ValueEqSpec ValueEqProofs
  DefParser DefPrinter Resolve ResolveProps DefPrinterSpec DefPrinterProps FloatPrinter FloatSpec FloatProofs.
Local Open Scope string_scope.
Local Open Scope list_scope.

Section C77.
  Variables (parse_f64 : text -> option N) (shortest : N -> text).
  Hypothesis PL : platform parse_f64 shortest.
  Notation print := (print_float shortest).

  (** A float is written as a literal that is read as the same float iff it is finite, and an integer or at least 10^-10 away from
      the next integer towards zero. *)
  Theorem c77_float_survives_iff : forall b, f64 b -> (float_literal (print b) /\ parse_f64 (print b) = Some b) <-> printable b.
  Proof using PL. now apply survives_iff. Qed.
  (** Other finite floats come back as that integer. *)
  Theorem c77_float_comes_back : forall b z, f64 b -> f64_number b = Finite z -> ~ printable b ->
    exists b', float_literal (print b) /\ parse_f64 (print b) = Some b' /\ f64_number b' = Finite (z - Z.rem z one).
  Proof using PL.
    intros b z F H N. destruct (near_integer b) eqn:K; [|exfalso; apply N; exists z; split; [exact H|right; now apply (near_integer_false b z H)]].
    destruct (near_read _ _ PL b F K) as (b' & _ & E' & N' & M' & L & R). exists b'. split; [exact L|split; [exact R|]]. rewrite (finite_number b' E'), N', M'. f_equal.
    apply number_finite in H as (_ & ->). rewrite one_unit. pose proof (N.div_mod (f64_magnitude b) f64_unit ltac:(discriminate)) as D.
    assert (Q : Z.rem (Z.of_N (f64_magnitude b)) (Z.of_N f64_unit) = Z.of_N (f64_magnitude b mod f64_unit)).
    { rewrite N2Z.inj_mod. apply Z.rem_mod_nonneg; [lia|reflexivity]. }
    destruct (f64_negative b); [rewrite Z.rem_opp_l by discriminate|]; rewrite Q; lia.
  Qed.
  (** Infinities are written as names. *)
  Theorem c77_infinite : forall b n, f64_number b = Infinite n -> print b = if n then tx "-inf" else tx "inf".
  Proof using.
    intros b n H. assert (E : f64_exponent b = 2047%N).
    { destruct (N.eq_dec (f64_exponent b) 2047) as [E|E]; [exact E|]. rewrite (finite_number b E) in H. discriminate. }
    unfold FloatPrinter.print_float. replace (near_integer b) with false by (unfold near_integer; now rewrite E). unfold display_float. rewrite E, N.eqb_refl.
    unfold f64_number in H. fold (f64_exponent b) (f64_fraction b) in H. rewrite E, N.eqb_refl in H. destruct (N.eqb (f64_fraction b) 0); [|discriminate]. injection H as H. assert (X : n = f64_negative b) by (symmetry; exact H). rewrite X. unfold sign_text.
    destruct (f64_negative b); reflexivity.
  Qed.

  Lemma sayable_writable ts : Forall sayable ts -> Forall (writable parse_f64 print) ts.
  Proof using PL. intros H. eapply Forall_impl; [|exact H]. intros [] K; cbn in *; auto. destruct K as (F & K). now apply c77_float_survives_iff. Qed.
  (** Hence C02 for all values whose floats are printable, *)
  Theorem c77_values : forall recover other_digit v const, value_ok const v = true -> Forall sayable (tk_value v) ->
    exists ts, tokens_of recover other_digit parse_f64 (print_value print v) ts /\ parse_value_tokens const ts = POk v [].
  Proof using PL. intros recover other_digit v const V H. apply c02_value_roundtrip; [exact V|]. now apply sayable_writable. Qed.
  (** C03 for all texts of documents whose floats are printable, *)
  Theorem c77_documents_partial : forall recover other_digit s d, parse_text recover other_digit parse_f64 s = inl d ->
    Forall (fun f => fr_dirs f = []) (doc_frags d) -> (forall b, In (TkFloat b) (tk_document d) -> printable b) ->
    exists d', parse_text recover other_digit parse_f64 (print_document print d) = inl d' /\ same_document d' d.
  Proof using PL.
    intros recover other_digit s d H N K. eapply c03_parsed_text_partial; [apply (pl_ascii _ _ PL)|exact H|exact N|]. intros b Hb. apply c77_float_survives_iff; [|auto].
    apply c10_whole_documents in H as (ds & _ & _ & Hi & ->). apply (c05_layout_only recover other_digit) in Hi; [|apply (pl_ascii _ _ PL)]. apply tk_document_in in Hb. revert Hb. clear K N.
    induction Hi; intros Hb; cbn [In] in Hb; try contradiction; auto. destruct Hb as [->|Hb]; auto. match goal with L : lexeme _ (TkFloat b) _ |- _ => inversion L; subst end. eapply (pl_bits _ _ PL); eauto.
  Qed.
  (** and C15 for all texts of schemas whose floats are printable. *)
  Theorem c77_schemas_partial : forall so dor recover other_digit t s, Permutation so all_builtins -> Permutation dor all_builtin_directives ->
    read_schema_with so dor recover other_digit parse_f64 t = inl (inl s) -> roots_recognisable s ->
    (forall ts b, tokens_of recover other_digit parse_f64 t ts -> In (TkFloat b) ts -> printable b) ->
    read_schema_with so dor recover other_digit parse_f64 (print_schema print s) = inl (inl (shown_schema s)).
  Proof using PL.
    intros so dor recover other_digit t s Hso Hdor H RR K. refine (c15_schema_partial so dor recover other_digit parse_f64 print Hso Hdor (pl_ascii _ _ PL) t s H _ RR). intros ts b Ht Hb. apply c77_float_survives_iff; [|eauto].
    clear K H. apply (c05_layout_only recover other_digit) in Ht; [|apply (pl_ascii _ _ PL)]. revert Hb.
    induction Ht; intros Hb; cbn [In] in Hb; try contradiction; auto. destruct Hb as [->|Hb]; auto. match goal with L : lexeme _ (TkFloat b) _ |- _ => inversion L; subst end. eapply (pl_bits _ _ PL); eauto.
  Qed.
End C77.

(** * A library as it is asked for *)
(** It reads decimal literals whose value is exactly that of a float, and shows floats by all their digits. *)
Definition encode (negative : bool) (m : N) : option N :=
  let s := (if negative then 2 ^ 63 else 0)%N in
  if N.ltb m (2 ^ 52) then Some (s + m)%N else
  let k := (N.log2 m - 52)%N in
  if N.eqb (m mod 2 ^ k) 0 && N.ltb k 2046 then Some (s + ((k + 1) * 2 ^ 52 + (m / 2 ^ k - 2 ^ 52)))%N else None.
Fixpoint at_point (l : text) : option (text * text) :=
  match l with
  | [] => None
  | c :: l' => if N.eqb c 46 then Some ([], l') else match at_point l' with Some (i, f) => Some (c :: i, f) | None => None end
  end.
Definition read_unsigned (negative : bool) (l : text) : option N :=
  match at_point l with
  | Some (i, f) =>
      let num := (digits_value (i ++ f) * f64_unit)%N in let den := (10 ^ N.of_nat (length f))%N in
      if forallb is_digit (i ++ f) && N.eqb (num mod den) 0 then encode negative (num / den) else None
  | None => None
  end.
Definition read_exact (l : text) : option N := match l with c :: l' => if N.eqb c 45 then read_unsigned true l' else read_unsigned false l | [] => None end.
Fixpoint places (n : nat) (x : N) : text := match n with O => [] | S n' => places n' (x / 10) ++ [48 + x mod 10]%N end.
Definition show_exact (b : N) : text :=
  sign_text b ++ show_N (f64_magnitude b / f64_unit) ++ [46%N] ++ places 1074 (f64_magnitude b mod f64_unit * 5 ^ 1074).

Section Exact.
  Local Open Scope N_scope.
  Lemma encode_magnitude b : f64 b -> f64_exponent b <> 2047 -> encode (f64_negative b) (f64_magnitude b) = Some b.
  Proof.
    intros F E. unfold encode, f64_magnitude. pose proof (parts b F) as P. change (ex b) with (f64_exponent b) in P. change (fr b) with (f64_fraction b) in P. fold (f64_negative b) in P.
    pose proof (fr_lt b) as Hf. change (fr b) with (f64_fraction b) in Hf. pose proof (ex_lt b) as He. change (ex b) with (f64_exponent b) in He. change (2 ^ 11) with 2048 in He.
    destruct (N.eqb_spec (f64_exponent b) 0) as [Z|Z].
    - rewrite Z in P. destruct (N.ltb_spec (f64_fraction b) (2 ^ 52)); [|lia]. f_equal. destruct (f64_negative b); lia.
    - set (k := f64_exponent b - 1). set (m := (2 ^ 52 + f64_fraction b) * 2 ^ k). assert (K : 0 < 2 ^ k) by (apply N.neq_0_lt_0, N.pow_nonzero; lia).
      assert (L : N.log2 m = 52 + k).
      { apply N.log2_unique; [lia|]. unfold m. rewrite N.pow_succ_r', N.pow_add_r. nia. }
      destruct (N.ltb_spec m (2 ^ 52)) as [X|_]; [unfold m in X; nia|]. rewrite L. replace (52 + k - 52) with k by lia.
      assert (D : m mod 2 ^ k = 0) by (apply N.mod_mul; lia). assert (Q : m / 2 ^ k = 2 ^ 52 + f64_fraction b) by (apply N.div_mul; lia).
      rewrite D, Q. destruct (N.ltb_spec k 2046) as [_|X]; [|unfold k in X; lia]. cbn [N.eqb andb]. f_equal. symmetry. etransitivity; [exact P|]. unfold k. destruct (f64_negative b); lia.
  Qed.
  Lemma encode_bits s m b : encode s m = Some b -> f64 b.
  Proof.
    unfold encode. destruct (N.ltb_spec m (2 ^ 52)) as [H|H].
    - intros [= <-]. destruct (fields s 0 m) as (K & _); [reflexivity|exact H|]. exact K.
    - destruct (N.eqb_spec (m mod 2 ^ (N.log2 m - 52)) 0) as [D|]; [|discriminate]. destruct (N.ltb_spec (N.log2 m - 52) 2046) as [L|]; [|discriminate]. cbn [andb]. intros [= <-].
      set (k := N.log2 m - 52) in *. destruct (fields s (k + 1) (m / 2 ^ k - 2 ^ 52)) as (K & _); [change (2 ^ 11) with 2048; lia| |exact K].
      assert (P : 2 ^ N.log2 m <= m < 2 ^ N.succ (N.log2 m)) by (apply N.log2_spec; lia).
      assert (G : 52 <= N.log2 m) by (apply N.log2_le_pow2; lia). assert (X : m / 2 ^ k < 2 ^ 53).
      { apply N.div_lt_upper_bound; [apply N.pow_nonzero; lia|]. rewrite <- N.pow_add_r. replace (k + 53) with (N.succ (N.log2 m)) by (unfold k; lia). apply P. }
      change (2 ^ 53) with (2 * 2 ^ 52) in X. lia.
  Qed.
  Lemma at_point_app i f : ~ In 46 i -> at_point (i ++ [46] ++ f) = Some (i, f).
  Proof.
    induction i as [|c i IH]; intros H; [reflexivity|]. cbn [app at_point]. destruct (N.eqb_spec c 46) as [->|]; [exfalso; apply H; now left|]. change (i ++ 46 :: f) with (i ++ [46] ++ f). rewrite IH; [reflexivity|]. intros K. apply H. now right.
  Qed.
  Lemma at_point_Some l i f : at_point l = Some (i, f) -> l = i ++ [46] ++ f.
  Proof.
    revert i. induction l as [|c l IH]; cbn [at_point]; [discriminate|]. intros i. destruct (N.eqb_spec c 46) as [->|]; [now intros [= <- <-]|].
    destruct (at_point l) as [[i' f']|]; [|discriminate]. intros [= <- <-]. cbn [app]. f_equal. now apply IH.
  Qed.
  Lemma digit_is c : digit c -> is_digit c = true.
  Proof. unfold digit, is_digit. intros H. apply andb_true_iff. rewrite !N.leb_le. lia. Qed.
  Lemma unsigned_digits i : unsigned_int i -> Forall digit i.
  Proof. intros [->|(c & l & -> & H & K)]; constructor; auto; unfold digit; lia. Qed.
  Lemma read_exactly l b : f64 b -> writes_exactly l b -> read_exact l = Some b.
  Proof.
    intros F (s & i & f & z & -> & Hi & (_ & Hf) & Es & Hz & V). pose proof (unsigned_digits i Hi) as Di. pose proof (abs_magnitude b z Hz) as A. apply number_finite in Hz as (E & _).
    assert (R : read_unsigned s (i ++ [46] ++ f) = Some b).
    { unfold read_unsigned. rewrite at_point_app by (intros K; rewrite Forall_forall in Di; specialize (Di _ K); unfold digit in Di; lia).
      replace (forallb is_digit (i ++ f)) with true by (symmetry; apply forallb_forall; intros c K; apply digit_is; apply in_app_iff in K; rewrite Forall_forall in Di, Hf; destruct K; auto).
      rewrite one_unit, A in V. assert (V' : digits_value (i ++ f) * f64_unit = f64_magnitude b * 10 ^ N.of_nat (length f)).
      { apply N2Z.inj. rewrite !N2Z.inj_mul, N2Z.inj_pow, nat_N_Z. exact V. }
      assert (P : 10 ^ N.of_nat (length f) <> 0) by (apply N.pow_nonzero; lia).
      rewrite V', N.mod_mul, N.div_mul by exact P. cbn [N.eqb andb]. rewrite Es. now apply encode_magnitude. }
    destruct s; cbn [app].
    - unfold read_exact. rewrite N.eqb_refl. exact R.
    - destruct i as [|c i]; [destruct Hi as [H|(? & ? & H & _)]; discriminate|]. cbn [app read_exact]. inversion Di; subst. destruct (N.eqb_spec c 45) as [->|]; [match goal with H : digit 45 |- _ => unfold digit in H; lia end|exact R].
  Qed.
  Lemma places_length n : forall x, length (places n x) = n.
  Proof. induction n as [|n IH]; intros x; cbn [places]; [reflexivity|]. rewrite app_length, IH. cbn. lia. Qed.
  Lemma places_digits n : forall x, Forall digit (places n x).
  Proof. induction n as [|n IH]; intros x; cbn [places]; [constructor|]. apply Forall_app. split; [apply IH|]. constructor; [|constructor]. pose proof (N.mod_lt x 10 ltac:(discriminate)). unfold digit. revert H. generalize (x mod 10). lia. Qed.
  Lemma digits_value_app l m : digits_value (l ++ m) = digits_value l * 10 ^ N.of_nat (length m) + digits_value m.
  Proof.
    induction m as [|c m IH] using rev_ind; [rewrite app_nil_r; cbn; lia|]. rewrite app_assoc, !digits_value_snoc, IH, app_length. cbn [length].
    replace (N.of_nat (length m + 1)) with (N.succ (N.of_nat (length m))) by lia. rewrite N.pow_succ_r'. lia.
  Qed.
  Lemma places_value n : forall x, x < 10 ^ N.of_nat n -> digits_value (places n x) = x.
  Proof.
    induction n as [|n IH]; intros x H; cbn [places]; [change (10 ^ N.of_nat 0) with 1 in H; cbn; lia|]. rewrite digits_value_snoc. pose proof (N.mod_lt x 10 ltac:(discriminate)). unfold digit_value. replace (48 + x mod 10 - 48) with (x mod 10) by (generalize (x mod 10); lia).
    rewrite IH; [pose proof (N.div_mod x 10 ltac:(discriminate)); lia|]. apply N.div_lt_upper_bound; [lia|]. rewrite Nat2N.inj_succ, N.pow_succ_r' in H. exact H.
  Qed.
  Lemma show_exactly_by b n p : n <> O -> 0 < p -> 10 ^ N.of_nat n = p * f64_unit -> f64_exponent b <> 2047 ->
    writes_exactly (sign_text b ++ show_N (f64_magnitude b / f64_unit) ++ [46] ++ places n (f64_magnitude b mod f64_unit * p)) b.
  Proof.
    intros N0 P5 P10 E. exists (f64_negative b), (show_N (f64_magnitude b / f64_unit)), (places n (f64_magnitude b mod f64_unit * p)), (if f64_negative b then - Z.of_N (f64_magnitude b) else Z.of_N (f64_magnitude b))%Z.
    split; [reflexivity|]. split; [apply show_unsigned|]. split; [split; [intros K; apply (f_equal (@length N)) in K; rewrite places_length in K; contradiction|apply places_digits]|].
    split; [reflexivity|]. split; [now apply finite_number|]. rewrite digits_value_app, places_length, digits_value_show.
    pose proof (N.mod_lt (f64_magnitude b) f64_unit ltac:(discriminate)) as L. pose proof (N.div_mod (f64_magnitude b) f64_unit ltac:(discriminate)) as D.
    rewrite places_value by (rewrite P10, (N.mul_comm p); apply N.mul_lt_mono_pos_r; assumption).
    rewrite one_unit. rewrite <- nat_N_Z. change 10%Z with (Z.of_N 10). rewrite <- N2Z.inj_pow.
    replace (Z.abs (if f64_negative b then - Z.of_N (f64_magnitude b) else Z.of_N (f64_magnitude b))) with (Z.of_N (f64_magnitude b)) by (destruct (f64_negative b); lia).
    rewrite <- !N2Z.inj_mul. f_equal. rewrite P10. clear P10. set (q := f64_magnitude b / f64_unit) in *. set (r := f64_magnitude b mod f64_unit) in *. clearbody q r. rewrite D. generalize f64_unit. intros u. ring.
  Qed.
  Lemma show_exactly b : f64_exponent b <> 2047 -> writes_exactly (show_exact b) b.
  Proof. apply show_exactly_by; [discriminate|reflexivity|vm_compute; reflexivity]. Qed.
  Lemma exactly_literal l b : writes_exactly l b -> float_literal l.
  Proof.
    intros (s & i & f & z & -> & Hi & Hf & _). exists ((if s then [45] else []) ++ i), ([46] ++ f), []. rewrite app_nil_r, <- app_assoc. split; [reflexivity|]. split.
    - destruct s; [right; eexists; split; [reflexivity|exact Hi]|left; exact Hi].
    - left. split; [|reflexivity]. exists f. auto.
  Qed.
  Theorem exact_platform : platform read_exact show_exact.
  Proof.
    assert (U : forall s l b, read_unsigned s l = Some b -> Forall (fun c => c < 128) l /\ f64 b).
    { intros s l b. unfold read_unsigned. destruct (at_point l) as [[i f]|] eqn:A; [|discriminate]. apply at_point_Some in A as ->.
      destruct (forallb is_digit (i ++ f)) eqn:D; [|discriminate]. destruct (N.eqb _ 0); [|discriminate]. cbn [andb]. intros H. split; [|eapply encode_bits; eauto].
      rewrite forallb_forall in D. apply Forall_forall. intros c Hc. rewrite !in_app_iff in Hc. destruct Hc as [Hc|[[<-|[]]|Hc]]; [|lia|];
      assert (K : is_digit c = true) by (apply D, in_app_iff; auto); unfold is_digit in K; apply andb_true_iff in K as (_ & K); apply N.leb_le in K; lia. }
    split.
    - intros [|c l] b; cbn [read_exact]; [discriminate|]. destruct (N.eqb_spec c 45) as [->|]; intros H; apply U in H as (H & _); [constructor; [lia|exact H]|exact H].
    - intros [|c l] b; cbn [read_exact]; [discriminate|]. destruct (N.eqb_spec c 45) as [->|]; intros H; apply U in H as (_ & H); exact H.
    - intros l b F H. now apply read_exactly.
    - intros b z F H _. apply number_finite in H as (E & _). pose proof (show_exactly b E) as S. split; [eapply exactly_literal; eauto|]. now apply read_exactly.
  Qed.
End Exact.

(** * Floats that do not survive *)
Definition one_field (v : text) : text := tx "query {" ++ [10%N] ++ tx "  f(x: " ++ v ++ tx ")" ++ [10%N] ++ tx "}" ++ [10%N].
Lemma forallb_digits l : forallb is_digit l = true -> Forall digit l.
Proof. rewrite forallb_forall, Forall_forall. intros H c K. specialize (H c K). unfold is_digit in H. apply andb_true_iff in H as (H1 & H2). apply N.leb_le in H1, H2. unfold digit. lia. Qed.
Definition document_of_value (v : value) : document :=
  {| doc_ops := [{| op_explicit := true; op_type := OQuery; op_name := None; op_vars := []; op_dirs := []; op_sel := [SField None (tx "f") [(tx "x", v)] [] []] |}]; doc_frags := [] |}.
Lemma one_field_read recover other_digit parse_f64 print v : value_ok false v = true -> Forall (writable parse_f64 print) (tk_value v) ->
  parse_text recover other_digit parse_f64 (print_document print (document_of_value v)) = inl (document_of_value v).
Proof.
  intros V W.
  rewrite c03_print_parse; [reflexivity|discriminate|..].
  - constructor; [|constructor]. unfold operation_ok. cbn. rewrite V. repeat split; auto; discriminate.
  - constructor.
  - cbn. rewrite <- !app_assoc. repeat (first [apply Forall_app; split; [exact W|] | constructor; [cbn; auto; try (split; [|repeat constructor]; unfold name_continue, name_start; lia)|] | constructor]).
Qed.
(** "Every document comes back" is false: the program writes 0.00000000001 as 0.0, *)
Theorem c77_small_refuted : forall recover other_digit parse_f64 shortest, platform parse_f64 shortest ->
  parse_f64 (tx "0.00000000001") = Some 4442235333156365461%N ->
  exists d d', parse_text recover other_digit parse_f64 (one_field (tx "0.00000000001")) = inl d /\
    print_document (print_float shortest) d = one_field (tx "0.0") /\
    parse_text recover other_digit parse_f64 (one_field (tx "0.0")) = inl d' /\ ~ same_document d' d.
Proof.
  intros recover other_digit parse_f64 shortest PL H. exists (document_of_value (VFloat 4442235333156365461)), (document_of_value (VFloat 0)). split; [|split; [|split]].
  - change (one_field (tx "0.00000000001")) with (print_document (fun _ => tx "0.00000000001") (document_of_value (VFloat 4442235333156365461))). apply one_field_read; [reflexivity|].
    constructor; [|constructor]. split; [|exact H]. exists (tx "0"), (tx ".00000000001"), []. split; [reflexivity|]. split; [left; left; reflexivity|]. left. split; [|reflexivity].
    exists (tx "00000000001"). split; [reflexivity|]. split; [discriminate|]. now apply forallb_digits.
  - vm_compute. reflexivity.
  - change (one_field (tx "0.0")) with (print_document (fun _ => tx "0.0") (document_of_value (VFloat 0))). apply one_field_read; [reflexivity|].
    constructor; [|constructor]. split.
    + exists (tx "0"), (tx ".0"), []. split; [reflexivity|]. split; [left; left; reflexivity|]. left. split; [|reflexivity].
      exists (tx "0"). split; [reflexivity|]. split; [discriminate|]. now apply forallb_digits.
    + apply (pl_exact _ _ PL); [reflexivity|]. exists false, (tx "0"), (tx "0"), 0%Z. split; [reflexivity|]. split; [left; reflexivity|]. split; [split; [discriminate|]; now apply forallb_digits|]. repeat split.
  - intros (K & _). inversion K as [|? ? ? ? S]; subst. unfold same_operation in S. cbn in S. decompose [and] S. discriminate.
Qed.
(** and a number beyond the range as a name. *)
Theorem c77_infinite_refuted : forall recover other_digit parse_f64 shortest,
  parse_f64 (tx "1e400") = Some 9218868437227405312%N ->
  exists d d', parse_text recover other_digit parse_f64 (one_field (tx "1e400")) = inl d /\
    print_document (print_float shortest) d = one_field (tx "inf") /\
    parse_text recover other_digit parse_f64 (one_field (tx "inf")) = inl d' /\ ~ same_document d' d.
Proof.
  intros recover other_digit parse_f64 shortest H. exists (document_of_value (VFloat 9218868437227405312)), (document_of_value (VEnum (tx "inf"))). split; [|split; [|split]].
  - change (one_field (tx "1e400")) with (print_document (fun _ => tx "1e400") (document_of_value (VFloat 9218868437227405312))). apply one_field_read; [reflexivity|].
    constructor; [|constructor]. split; [|exact H]. exists (tx "1"), [], (tx "e400"). split; [reflexivity|]. split; [left; right; exists 49%N, []; split; [reflexivity|split; [lia|constructor]]|]. right. left. split; [reflexivity|].
    exists 101%N, [], (tx "400"). split; [reflexivity|]. split; [now left|]. split; [now left|]. split; [discriminate|]. now apply forallb_digits.
  - vm_compute. reflexivity.
  - change (one_field (tx "inf")) with (print_document (fun _ => []) (document_of_value (VEnum (tx "inf")))). apply one_field_read; [reflexivity|].
    constructor; [|constructor]. cbn. split; [unfold name_start; lia|repeat constructor; unfold name_continue, name_start; lia].
  - intros (K & _). inversion K as [|? ? ? ? S]; subst. unfold same_operation in S. cbn in S. decompose [and] S. discriminate.
Qed.

(** * Cases *)
(** the same library, which also reads these two literals as Rust does *)
Definition read_more (l : text) : option N :=
  if list_eq_dec N.eq_dec l (tx "0.00000000001") then Some 4442235333156365461%N else
  if list_eq_dec N.eq_dec l (tx "1e400") then Some 9218868437227405312%N else read_exact l.
Lemma more_platform : platform read_more show_exact.
Proof.
  destruct exact_platform as [A B X S]. assert (M : forall l b, f64 b -> writes_exactly l b -> read_more l = Some b).
  { intros l b F H. unfold read_more. destruct (list_eq_dec N.eq_dec l (tx "0.00000000001")) as [->|_]; [exfalso|destruct (list_eq_dec N.eq_dec l (tx "1e400")) as [->|_]; [exfalso|now apply X]].
    - destruct H as (s & i & f & z & E & Hi & _ & _ & _ & V). destruct s; [discriminate E|]. destruct Hi as [->|(c & l & -> & Hc & _)]; [|assert (Ec : c = 48%N) by (cbn in E; congruence); lia].
      injection E as <-. assert (D : ((Z.abs z * 10 ^ 11) mod 5 = 0)%Z) by (replace (10 ^ 11)%Z with (20000000000 * 5)%Z by reflexivity; rewrite Z.mul_assoc; apply Z.mod_mul; discriminate).
      match type of V with _ = (_ * 10 ^ ?e)%Z => change e with 11%Z in V end. rewrite <- V in D. vm_compute in D. discriminate.
    - destruct H as (s & i & f & z & E & _). assert (K : In 46%N (tx "1e400")) by (rewrite E, !in_app_iff; right; right; left; now left). cbn in K. intuition discriminate. }
  split.
  - intros l b. unfold read_more. repeat destruct (list_eq_dec _ _ _) as [->|_]; [intros _; apply Forall_forall; intros c K; cbn in K; intuition (subst; reflexivity)..|apply A].
  - intros l b. unfold read_more. repeat destruct (list_eq_dec _ _ _) as [->|_]; [intros [= <-]; reflexivity..|apply B].
  - exact M.
  - intros b z F H R. destruct (S b z F H R) as (L & _). split; [exact L|]. apply M; [exact F|]. apply number_finite in H as (E & _). now apply show_exactly.
Qed.
Example more_cases : read_more (tx "0.00000000001") = Some 4442235333156365461%N /\ read_more (tx "1e400") = Some 9218868437227405312%N.
Proof. split; reflexivity. Qed.
(** 3.0, -2.0, 1e22, 0.5, 1e-11, -1e-11, 5.00000000005, 1 - 2^-53, 1e-10 *)
Example print_cases : map (print_float (fun _ => tx "?")) [4613937818241073152; 13835058055282163712; 4936209963552724370; 4602678819172646912; 4442235333156365461; 13665607370011141269; 4617315517961657319; 4607182418800017407; 4457293557087583675]%N
  = [tx "3.0"; tx "-2.0"; tx "10000000000000000000000.0"; tx "?"; tx "0.0"; tx "-0.0"; tx "5.0"; tx "?"; tx "?"].
Proof. vm_compute. reflexivity. Qed.
Example printable_cases : printable 4602678819172646912 /\ printable 4613937818241073152 /\ ~ printable 4442235333156365461 /\ ~ printable 9218868437227405312.
Proof.
  split; [exists (2 ^ 1073)%Z; split; [vm_compute; reflexivity|right; vm_compute; discriminate]|]. split; [exists (3 * 2 ^ 1074)%Z; split; [vm_compute; reflexivity|left; vm_compute; reflexivity]|].
  split; intros (z & H & K); [|vm_compute in H; discriminate]. assert (E : f64_number 4442235333156365461 = Finite (Z.of_N (f64_magnitude 4442235333156365461))) by (vm_compute; reflexivity).
  rewrite E in H. injection H as <-. destruct K as [K|K]; vm_compute in K; [discriminate|now apply K].
Qed.
(** a document that meets the hypotheses of c77_documents_partial: its float is -0.5 *)
Example documents_case : exists d, parse_text (fun _ => 0%nat) (fun _ => false) read_more (one_field (tx "-0.5")) = inl d /\
  Forall (fun f => fr_dirs f = []) (doc_frags d) /\ In (TkFloat 13826050856027422720) (tk_document d) /\ (forall b, In (TkFloat b) (tk_document d) -> printable b).
Proof.
  exists (document_of_value (VFloat 13826050856027422720)). split; [vm_compute; reflexivity|]. split; [constructor|]. split; [cbn; tauto|].
  intros b H. cbn in H. decompose [or] H; try discriminate; try contradiction. match goal with K : TkFloat _ = TkFloat _ |- _ => injection K as <- end.
  exists (- 2 ^ 1073)%Z. split; [vm_compute; reflexivity|right; vm_compute; discriminate].
Qed.

Print Assumptions c77_float_survives_iff. Print Assumptions c77_float_comes_back. Print Assumptions c77_infinite. Print Assumptions c77_values.
Print Assumptions c77_documents_partial. Print Assumptions c77_schemas_partial. Print Assumptions c77_small_refuted. Print Assumptions c77_infinite_refuted.
