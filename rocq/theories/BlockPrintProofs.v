(** Descriptions: what the block strings of the printer are read back as. *)
From Verif Require Import Base Lexer LexerSpec LexerProofs LexerBlockProofs LexerStreamProofs Printer.
From Coq Require Import Lia.

(** ** Escaping *)
Lemma escape3_cons a s : ~ starts_with quotes3 (a :: s) -> escape3 (a :: s) = a :: escape3 s.
Proof.
  intros H. cbn [escape3]. destruct s as [|b [|c s]]; [reflexivity | reflexivity|].
  destruct (N.eqb_spec a 34) as [->|]; [|reflexivity]. destruct (N.eqb_spec b 34) as [->|]; [|reflexivity]. destruct (N.eqb_spec c 34) as [->|]; [|reflexivity].
  exfalso. apply H. now exists s.
Qed.
Lemma escape3_quotes s : escape3 (quotes3 ++ s) = escaped3 ++ escape3 s.
Proof. reflexivity. Qed.
Lemma starts_quotes_dec s : {r | s = quotes3 ++ r} + {~ starts_with quotes3 s}.
Proof.
  destruct s as [|a [|b [|c s]]]; try (right; intros (r & H); discriminate).
  destruct (N.eq_dec a 34) as [->|]; [|right; intros (r & H); injection H; congruence].
  destruct (N.eq_dec b 34) as [->|]; [|right; intros (r & H); injection H; congruence].
  destruct (N.eq_dec c 34) as [->|]; [|right; intros (r & H); injection H; congruence].
  left. now exists s.
Qed.
Lemma escape3_line l r : escape3 (l ++ 10%N :: r) = escape3 l ++ 10%N :: escape3 r.
Proof.
  induction l as [l IH] using (induction_ltof1 _ (@length N)); unfold ltof in IH.
  destruct (starts_quotes_dec l) as [(l' & ->) | N].
  - rewrite <- app_assoc, !escape3_quotes, <- app_assoc. f_equal. apply IH. cbn. lia.
  - destruct l as [|a l].
    + cbn [app]. rewrite escape3_cons; [reflexivity|]. intros (q & H). discriminate.
    + cbn [app]. rewrite !escape3_cons; [| exact N |].
      * cbn [app]. f_equal. apply IH. cbn. lia.
      * intros (q & H). injection H as -> H. destruct l as [|b l]; [discriminate|]. injection H as -> H. destruct l as [|c l]; [discriminate|]. injection H as -> H.
        apply N. now exists l.
Qed.
(** the escaped text starts with a quotation mark only if the text does *)
Lemma escape3_head l r : starts_with [34%N] (escape3 l ++ 10%N :: r) -> exists l', l = 34%N :: l' /\ escape3 l = 34%N :: escape3 l'.
Proof.
  intros (q & H). destruct l as [|a l]; [discriminate|]. destruct (starts_quotes_dec (a :: l)) as [(l' & E) | N].
  - rewrite E in H. discriminate.
  - rewrite (escape3_cons _ _ N) in *. injection H as -> _. eauto.
Qed.
Lemma escape3_no_quotes l r : ~ starts_with quotes3 (escape3 l ++ 10%N :: r).
Proof.
  intros (q & H). destruct (escape3_head l r) as (l1 & -> & E1); [rewrite H; now eexists|]. rewrite E1 in H. cbn [app] in H. injection H as H.
  destruct (escape3_head l1 r) as (l2 & -> & E2); [rewrite H; now eexists|]. rewrite E2 in H. cbn [app] in H. injection H as H.
  destruct (escape3_head l2 r) as (l3 & -> & E3); [rewrite H; now eexists|].
  cbn [escape3] in E1. discriminate.
Qed.
Lemma block_body_line l b v : block_body b v -> block_body (escape3 l ++ 10%N :: b) (l ++ 10%N :: v).
Proof.
  intros Hb. induction l as [l IH] using (induction_ltof1 _ (@length N)); unfold ltof in IH.
  destruct (starts_quotes_dec l) as [(l' & ->) | N].
  - rewrite escape3_quotes, <- !app_assoc. apply bb_escaped, IH. cbn. lia.
  - destruct l as [|a l].
    + cbn [escape3 app]. apply bb_char; [| | exact Hb]; intros (q & H); discriminate.
    + pose proof (escape3_no_quotes (a :: l) (b ++ quotes3)) as K1. pose proof (escape3_no_quotes l (b ++ quotes3)) as K2.
      rewrite (escape3_cons _ _ N) in *. cbn [app] in *. apply bb_char.
      * rewrite <- app_assoc. exact K1.
      * intros (q & H). injection H as -> H. rewrite <- app_assoc in H. apply K2. exists q. exact H.
      * apply IH. cbn. lia.
Qed.
Lemma block_body_indent n b v : block_body b v -> block_body (write_indent n ++ b) (write_indent n ++ v).
Proof.
  intros H. induction n as [|n IH]; [exact H|]. cbn [write_indent repeat app]. apply bb_char; [| | exact IH]; intros (q & E); discriminate.
Qed.
Lemma block_body_lines n ls b v : block_body b v ->
  block_body (concat (map (fun l => write_indent n ++ escape3 l ++ newline) ls) ++ b) (concat (map (fun l => write_indent n ++ l ++ newline) ls) ++ v).
Proof.
  intros H. induction ls as [|l ls IH]; [exact H|]. cbn [map concat]. rewrite <- !app_assoc. apply block_body_indent. unfold newline. cbn [app]. now apply block_body_line.
Qed.

(** ** Lines *)
Definition one_line (l : text) : Prop := Forall (fun c => c <> 10 /\ c <> 13)%N l.
Lemma strip_cr_id l : one_line l -> strip_cr l = l.
Proof.
  intros H. unfold strip_cr. destruct (rev l) as [|c r] eqn:E; [reflexivity|].
  assert (I : In c l) by (apply in_rev; rewrite E; now left). unfold one_line in H. rewrite Forall_forall in H. destruct (H c I) as (_ & N). destruct (N.eqb_spec c 13); [congruence|reflexivity].
Qed.
Lemma str_lines_from_line l : one_line l -> forall acc r, str_lines_from acc (l ++ 10%N :: r) = strip_cr (acc ++ l) :: str_lines_from [] r.
Proof.
  induction 1 as [|c l (H1 & H2) F IH]; intros acc r; cbn [app str_lines_from].
  - now rewrite app_nil_r.
  - destruct (N.eqb_spec c 10); [congruence|]. rewrite IH. now rewrite <- app_assoc.
Qed.
Lemma str_lines_from_end l : one_line l -> forall acc, str_lines_from acc l = match acc ++ l with [] => [] | x => [x] end.
Proof.
  induction 1 as [|c l (H1 & H2) F IH]; intros acc; cbn [str_lines_from].
  - rewrite app_nil_r. destruct acc; reflexivity.
  - destruct (N.eqb_spec c 10); [congruence|]. rewrite IH. now rewrite <- app_assoc.
Qed.
Lemma str_lines_line l r : one_line l -> str_lines (l ++ 10%N :: r) = l :: str_lines r.
Proof. intros H. unfold str_lines. rewrite str_lines_from_line by exact H. cbn [app]. now rewrite strip_cr_id. Qed.
Lemma str_lines_end l : one_line l -> str_lines l = match l with [] => [] | _ => [l] end.
Proof. intros H. unfold str_lines. rewrite str_lines_from_end by exact H. destruct l; reflexivity. Qed.
Lemma escape3_one_line l : one_line l -> one_line (escape3 l).
Proof.
  unfold one_line. induction l as [l IH] using (induction_ltof1 _ (@length N)); unfold ltof in IH. intros H.
  destruct (starts_quotes_dec l) as [(l' & ->) | N].
  - rewrite escape3_quotes. apply Forall_app in H. destruct H as (_ & H). apply Forall_app. split.
    + repeat (apply Forall_cons; [split; discriminate|]). apply Forall_nil.
    + apply IH; [cbn; lia | exact H].
  - destruct l as [|a l]; [constructor|]. rewrite (escape3_cons _ _ N). inversion_clear H as [|? ? H1 H2]. constructor; [exact H1|]. apply IH; [cbn; lia | exact H2].
Qed.
(** a text without carriage returns is its lines *)
Inductive lined : text -> list text -> Prop :=
| lined_end l : one_line l -> lined l [l]
| lined_line l r ls : one_line l -> lined r ls -> lined (l ++ 10%N :: r) (l :: ls).
Lemma split_lines_line l r : one_line l -> split_lines (l ++ 10%N :: r) = l :: split_lines r.
Proof.
  induction 1 as [|c l (H1 & H2) F IH]; cbn [app split_lines]; [reflexivity|].
  destruct (N.eqb_spec c 13); [congruence|]. destruct (N.eqb_spec c 10); [congruence|]. now rewrite IH.
Qed.
Lemma split_lines_break s : split_lines (10%N :: s) = [] :: split_lines s.
Proof. reflexivity. Qed.
Lemma split_lines_end l : one_line l -> split_lines l = [l].
Proof.
  induction 1 as [|c l (H1 & H2) F IH]; cbn [split_lines]; [reflexivity|].
  destruct (N.eqb_spec c 13); [congruence|]. destruct (N.eqb_spec c 10); [congruence|]. now rewrite IH.
Qed.
Lemma lined_split s ls : lined s ls -> split_lines s = ls.
Proof. induction 1 as [l H|l r ls H _ IH]; [now apply split_lines_end|]. rewrite split_lines_line by exact H. now rewrite IH. Qed.
Lemma lined_exists s : ~ In 13%N s -> exists ls, lined s ls.
Proof.
  induction s as [|c s IH]; intros N; [exists [[]]; constructor; constructor|]. destruct IH as (ls & H); [intros I; apply N; now right|].
  destruct (N.eq_dec c 10) as [->|Nc].
  - exists ([] :: ls). apply (lined_line []); [constructor | exact H].
  - assert (C : (c <> 10 /\ c <> 13)%N) by (split; [exact Nc | intros ->; apply N; now left]).
    destruct H as [l H|l r ls H1 H2].
    + exists [c :: l]. constructor. now constructor.
    + exists ((c :: l) :: ls). apply (lined_line (c :: l)); [now constructor | exact H2].
Qed.
Lemma lined_lines s ls : lined s ls -> Forall one_line ls.
Proof. induction 1; repeat constructor; auto. Qed.
Lemma lined_join s ls : lined s ls -> join_lines ls = s.
Proof. induction 1 as [l H|l r ls H K IH]; [reflexivity|]. rewrite <- IH. destruct K; reflexivity. Qed.
Lemma lined_str s ls : lined s ls -> ls = str_lines s \/ ls = str_lines s ++ [[]].
Proof.
  induction 1 as [l H|l r ls H _ IH].
  - rewrite str_lines_end by exact H. destruct l; auto.
  - rewrite str_lines_line by exact H. destruct IH as [-> | ->]; auto.
Qed.
Lemma str_lines_escape s : forall ls, lined s ls -> str_lines (escape3 s) = map escape3 (str_lines s).
Proof.
  induction 1 as [l H|l r ls H _ IH].
  - rewrite !str_lines_end; [|auto|now apply escape3_one_line]. destruct l as [|a l]; [reflexivity|].
    destruct (starts_quotes_dec (a :: l)) as [(l' & E) | N]; [rewrite E; reflexivity|]. cbn [map]. now rewrite (escape3_cons _ _ N).
  - rewrite escape3_line, !str_lines_line; [|auto|now apply escape3_one_line]. cbn [map]. now rewrite IH.
Qed.
Lemma str_lines_one s ls : lined s ls -> Forall one_line (str_lines s).
Proof. intros H. pose proof (lined_lines _ _ H) as F. destruct (lined_str _ _ H) as [E|E]; rewrite E in F; [exact F|]. now apply Forall_app in F. Qed.

(** ** The raw value of the printed block string and its lines *)
Definition printed_raw (n : nat) (ls : list text) : text := 10%N :: concat (map (fun l => write_indent n ++ l ++ newline) ls) ++ write_indent n.
Lemma one_line_indent n l : one_line l -> one_line (write_indent n ++ l).
Proof. intros H. induction n as [|n IH]; [exact H|]. constructor; [split; discriminate | exact IH]. Qed.
Lemma split_printed n ls : Forall one_line ls -> split_lines (printed_raw n ls) = [] :: map (fun l => write_indent n ++ l) ls ++ [write_indent n].
Proof.
  intros F. unfold printed_raw. rewrite split_lines_break. f_equal.
  induction F as [|l ls H F IH].
  - cbn [map concat app]. rewrite <- (app_nil_r (write_indent n)). apply split_lines_end, one_line_indent. constructor.
  - cbn [map concat]. unfold newline in *. rewrite <- !app_assoc. cbn [app]. rewrite app_assoc, split_lines_line by now apply one_line_indent. cbn [app]. now rewrite IH.
Qed.

(** ** Indentation *)
Lemma leading_indent n l : leading_white (write_indent n ++ l) = n + leading_white l.
Proof. induction n as [|n IH]; [reflexivity|]. cbn [write_indent repeat app leading_white]. change (white 32) with true. cbv iota. fold (write_indent n). now rewrite IH. Qed.
Lemma indent_length n : length (write_indent n) = n.
Proof. apply repeat_length. Qed.
Lemma line_indent_indent n l : line_indent (write_indent n ++ l) = option_map (Nat.add n) (line_indent l).
Proof.
  unfold line_indent. rewrite leading_indent, app_length, indent_length.
  destruct (Nat.ltb_spec (n + leading_white l) (n + length l)), (Nat.ltb_spec (leading_white l) (length l)); try lia; reflexivity.
Qed.
Lemma line_indent_blank n : line_indent (write_indent n) = None.
Proof. rewrite <- (app_nil_r (write_indent n)), line_indent_indent. reflexivity. Qed.
Definition least (ls : list text) : option nat := fold_right (fun l acc => opt_min (line_indent l) acc) None ls.
Lemma least_app a b : least (a ++ b) = opt_min (least a) (least b).
Proof.
  induction a as [|l a IH]; cbn [app least fold_right]; [reflexivity|]. fold (least (a ++ b)). fold (least a). rewrite IH.
  destruct (line_indent l), (least a), (least b); cbn; try reflexivity. now rewrite Nat.min_assoc.
Qed.
Lemma least_indent n ls : least (map (fun l => write_indent n ++ l) ls) = option_map (Nat.add n) (least ls).
Proof.
  induction ls as [|l ls IH]; [reflexivity|]. cbn [map least fold_right]. fold (least (map (fun l => write_indent n ++ l) ls)). fold (least ls). rewrite IH, line_indent_indent.
  destruct (line_indent l), (least ls); cbn; try reflexivity. now rewrite Nat.add_min_distr_l.
Qed.
Lemma opt_min_none o : opt_min o None = o.
Proof. destruct o; reflexivity. Qed.
Lemma least_printed n ls : least (map (fun l => write_indent n ++ l) ls ++ [write_indent n]) = option_map (Nat.add n) (least ls).
Proof. rewrite least_app, least_indent. cbn [least fold_right]. rewrite line_indent_blank. cbn. apply opt_min_none. Qed.
Lemma only_white_leading l : only_white l = true <-> leading_white l = length l.
Proof.
  induction l as [|c l IH]; cbn; [tauto|]. destruct (white c); cbn; [rewrite IH; split; [intros ->; reflexivity | intros [= ->]; reflexivity] | split; discriminate].
Qed.
Lemma leading_le l : leading_white l <= length l.
Proof. induction l as [|c l IH]; cbn; [lia|]. destruct (white c); lia. Qed.
Lemma line_indent_none l : line_indent l = None <-> only_white l = true.
Proof.
  rewrite only_white_leading. unfold line_indent. pose proof (leading_le l). destruct (Nat.ltb_spec (leading_white l) (length l)); split; try congruence; lia.
Qed.
Lemma least_none ls : least ls = None -> Forall (fun l => only_white l = true) ls.
Proof.
  induction ls as [|l ls IH]; intros H; constructor; cbn [least fold_right] in H; fold (least ls) in H.
  - apply line_indent_none. destruct (line_indent l), (least ls); cbn in H; congruence.
  - apply IH. destruct (line_indent l), (least ls); cbn in H; congruence.
Qed.

(** ** The value *)
Definition trim (ls : list text) : list text := rev (drop_blank_lines (rev (drop_blank_lines ls))).
Lemma drop_all ls : Forall (fun l => only_white l = true) ls -> drop_blank_lines ls = [].
Proof. induction 1 as [|l ls H F IH]; [reflexivity|]. cbn. now rewrite H. Qed.
Lemma trim_white ls : Forall (fun l => only_white l = true) ls -> trim ls = [].
Proof. intros H. unfold trim. rewrite (drop_all _ H). reflexivity. Qed.
Lemma drop_last_blank ls : drop_blank_lines (ls ++ [[]]) = match drop_blank_lines ls with [] => [] | l => l ++ [[]] end.
Proof. induction ls as [|l ls IH]; [reflexivity|]. cbn [app drop_blank_lines]. destruct (only_white l); [exact IH | reflexivity]. Qed.
Lemma trim_last_blank ls : trim (ls ++ [[]]) = trim ls.
Proof.
  unfold trim. rewrite drop_last_blank. destruct (drop_blank_lines ls) as [|l ls']; [reflexivity|]. rewrite rev_app_distr. reflexivity.
Qed.
Lemma trim_first_blank ls : trim ([] :: ls) = trim ls.
Proof. reflexivity. Qed.
Lemma skipn_indent n k l : skipn (n + k) (write_indent n ++ l) = skipn k l.
Proof. induction n as [|n IH]; [reflexivity | exact IH]. Qed.
Lemma skipn_indent_all n k : skipn (n + k) (write_indent n) = [].
Proof. rewrite <- (app_nil_r (write_indent n)), skipn_indent. apply skipn_nil. Qed.
Definition deindent (ls : list text) : list text := match least ls with Some k => map (skipn k) ls | None => ls end.
Lemma spec_block_value_lines raw ls : split_lines raw = [] :: ls -> spec_block_value raw = join_lines (trim (deindent ls)).
Proof.
  intros E. unfold spec_block_value. rewrite E. change (rev (drop_blank_lines (rev (drop_blank_lines ?x)))) with (trim x).
  f_equal. unfold remove_indent, common_indent_of. cbn [tl]. fold (least ls). unfold deindent. destruct (least ls); apply trim_first_blank.
Qed.
Lemma trim_deindent_blank ls : trim (deindent (ls ++ [[]])) = trim (deindent ls).
Proof.
  unfold deindent. rewrite least_app. cbn [least fold_right line_indent opt_min leading_white length Nat.ltb Nat.leb]. rewrite opt_min_none.
  destruct (least ls); [rewrite map_app; cbn [map]; rewrite skipn_nil|]; apply trim_last_blank.
Qed.
Lemma trim_deindent_printed n ls : trim (deindent (map (fun l => write_indent n ++ l) ls ++ [write_indent n])) = trim (deindent ls).
Proof.
  unfold deindent. rewrite least_printed. destruct (least ls) as [k|] eqn:E; cbn [option_map].
  - rewrite map_app, map_map. cbn [map]. rewrite skipn_indent_all, trim_last_blank. f_equal. apply map_ext. intros. apply skipn_indent.
  - apply least_none in E. assert (W : only_white (write_indent n) = true) by (induction n; [reflexivity | exact IHn]).
    rewrite !trim_white; [reflexivity | exact E |]. apply Forall_app. split; [|now repeat constructor]. apply Forall_map. eapply Forall_impl; [|exact E].
    intros l H. unfold only_white in *. now rewrite forallb_app, W, H.
Qed.
Lemma printed_value n s ls : lined s ls -> spec_block_value (printed_raw n (str_lines s)) = join_lines (trim (deindent ls)).
Proof.
  intros H. rewrite (spec_block_value_lines _ _ (split_printed n _ (str_lines_one _ _ H))), trim_deindent_printed.
  destruct (lined_str _ _ H) as [E|E]; [rewrite E; reflexivity|]. rewrite E. now rewrite trim_deindent_blank.
Qed.
Lemma given_value s ls : lined s ls -> spec_block_value (10%N :: s) = join_lines (trim (deindent ls)).
Proof. intros H. apply spec_block_value_lines. rewrite split_lines_break. now rewrite (lined_split _ _ H). Qed.
Lemma print_block_lexeme parse_f64 n s : ~ In 13%N s -> exists l, print_block n s = write_indent n ++ l ++ newline /\ lexeme parse_f64 (TkStr (spec_block_value (10%N :: s))) l.
Proof.
  intros N. destruct (lined_exists s N) as (ls & H). unfold print_block.
  exists (quotes3 ++ (newline ++ concat (map (fun l => write_indent n ++ l ++ newline) (str_lines (escape3 s))) ++ write_indent n) ++ quotes3). split.
  - unfold quotes3. rewrite <- !app_assoc. reflexivity.
  - rewrite (given_value _ _ H), <- (printed_value n _ _ H). apply lx_block. unfold printed_raw, newline. cbn [app].
    rewrite (str_lines_escape _ _ H), map_map.
    apply bb_char; [intros (q & E); discriminate | intros (q & E); discriminate|].
    pose proof (block_body_lines n (str_lines s) _ _ (block_body_indent n [] [] bb_nil)) as K. rewrite app_nil_r in K. exact K.
Qed.
(** *** With carriage returns *)
Lemma escape3_at c l r : c <> 34%N -> escape3 (l ++ c :: r) = escape3 l ++ c :: escape3 r.
Proof.
  intros C. induction l as [l IH] using (induction_ltof1 _ (@length N)); unfold ltof in IH.
  destruct (starts_quotes_dec l) as [(l' & ->) | N].
  - rewrite <- app_assoc, !escape3_quotes, <- app_assoc. f_equal. apply IH. cbn. lia.
  - destruct l as [|a l].
    + cbn [app]. rewrite escape3_cons; [reflexivity|]. intros (q & H). injection H. congruence.
    + cbn [app]. rewrite !escape3_cons; [| exact N |].
      * cbn [app]. f_equal. apply IH. cbn. lia.
      * intros (q & H). injection H as -> H. destruct l as [|b l]; [cbn in H; injection H; congruence|]. injection H as -> H. destruct l as [|d l]; [cbn in H; injection H; congruence|]. injection H as -> H.
        apply N. now exists l.
Qed.
Lemma escape3_last l : forall x c, escape3 l = x ++ [c] -> c <> 34%N -> exists l', l = l' ++ [c] /\ x = escape3 l'.
Proof.
  induction l as [l IH] using (induction_ltof1 _ (@length N)); unfold ltof in IH. intros x c E C.
  destruct (starts_quotes_dec l) as [(l' & ->) | N].
  - rewrite escape3_quotes in E. destruct (escape3 l') as [|y ys] eqn:Q.
    + exfalso. rewrite app_nil_r in E. apply (f_equal (@rev N)) in E. rewrite rev_app_distr in E. injection E. congruence.
    + assert (X : exists x', y :: ys = x' ++ [c] /\ x = escaped3 ++ x').
      { destruct (exists_last (l := y :: ys)) as (x' & c' & X); [discriminate|]. rewrite X in E |- *. rewrite app_assoc in E. apply app_inj_tail in E. destruct E as (E & ->). exists x'. auto. }
      destruct X as (x' & X & ->). rewrite X in Q. apply IH in Q; [|cbn; lia|exact C]. destruct Q as (l'' & -> & ->). exists (quotes3 ++ l''). split; [now rewrite <- app_assoc|]. now rewrite escape3_quotes.
  - destruct l as [|a l]; [destruct x; discriminate|]. rewrite (escape3_cons _ _ N) in E. destruct x as [|x0 x].
    + injection E as -> E. destruct l as [|b l]; [exists []; auto|]. destruct (starts_quotes_dec (b :: l)) as [(l' & E') | N']; [rewrite E' in E; discriminate|]. rewrite (escape3_cons _ _ N') in E. discriminate.
    + injection E as -> E. apply IH in E; [|cbn; lia|exact C]. destruct E as (l' & -> & ->). exists (x0 :: l'). split; [reflexivity|]. symmetry. apply escape3_cons.
      intros (q & H). apply N. exists (q ++ [c]). cbn [app] in *. now rewrite app_comm_cons, H.
Qed.
Lemma strip_cr_escape l : strip_cr (escape3 l) = escape3 (strip_cr l).
Proof.
  assert (A : forall x c, strip_cr (x ++ [c]) = if N.eqb c 13 then x else x ++ [c]) by (intros; unfold strip_cr; rewrite rev_app_distr; cbn; now rewrite rev_involutive).
  destruct (escape3 l) as [|y ys] eqn:E.
  - destruct l as [|a l]; [reflexivity|]. destruct (starts_quotes_dec (a :: l)) as [(l' & E') | N]; [rewrite E' in E; discriminate | rewrite (escape3_cons _ _ N) in E; discriminate].
  - destruct (exists_last (l := y :: ys)) as (x & c & X); [discriminate|]. rewrite X in *. rewrite A. destruct (N.eqb_spec c 13) as [->|C].
    + apply escape3_last in E; [|discriminate]. destruct E as (l' & -> & ->). rewrite A. reflexivity.
    + assert (S : strip_cr l = l); [|now rewrite S]. destruct l as [|a l]; [reflexivity|]. destruct (exists_last (l := a :: l)) as (l' & c' & L); [discriminate|]. rewrite L in *. rewrite A.
      destruct (N.eqb_spec c' 13) as [->|]; [|reflexivity]. rewrite escape3_at in E by discriminate. cbn [escape3] in E. apply app_inj_tail in E. destruct E as (_ & E). congruence.
Qed.
Lemma no_break_split s : (~ In 10%N s) \/ exists l r, s = l ++ 10%N :: r /\ ~ In 10%N l.
Proof.
  induction s as [|c s [IH|(l & r & -> & IH)]]; [left; tauto | |].
  - destruct (N.eq_dec c 10) as [->|C]; [right; exists [], s; auto | left; intros [H|H]; auto].
  - right. destruct (N.eq_dec c 10) as [->|C]; [exists [], (l ++ 10%N :: r); auto | exists (c :: l), r; split; [reflexivity|]; intros [H|H]; auto].
Qed.
Lemma str_lines_first l : ~ In 10%N l -> forall acc r, str_lines_from acc (l ++ 10%N :: r) = strip_cr (acc ++ l) :: str_lines_from [] r.
Proof.
  induction l as [|c l IH]; intros N acc r; cbn [app str_lines_from]; [now rewrite app_nil_r|].
  destruct (N.eqb_spec c 10) as [->|]; [exfalso; apply N; now left|]. rewrite IH by (intros H; apply N; now right). now rewrite <- app_assoc.
Qed.
Lemma str_lines_last l : ~ In 10%N l -> forall acc, str_lines_from acc l = match acc ++ l with [] => [] | x => [x] end.
Proof.
  induction l as [|c l IH]; intros N acc; cbn [app str_lines_from]; [rewrite app_nil_r; now destruct acc|].
  destruct (N.eqb_spec c 10) as [->|]; [exfalso; apply N; now left|]. rewrite IH by (intros H; apply N; now right). now rewrite <- app_assoc.
Qed.
Lemma escape3_no_break l : ~ In 10%N l -> ~ In 10%N (escape3 l).
Proof.
  induction l as [l IH] using (induction_ltof1 _ (@length N)); unfold ltof in IH. intros H.
  destruct (starts_quotes_dec l) as [(l' & ->) | N].
  - rewrite escape3_quotes, in_app_iff. intros [I|I]; [cbn in I; intuition discriminate|]. apply IH in I; [exact I | cbn; lia |]. intros K. apply H. apply in_app_iff. auto.
  - destruct l as [|a l]; [auto|]. rewrite (escape3_cons _ _ N). intros [I|I]; [apply H; now left|]. apply IH in I; [exact I | cbn; lia |]. intros K. apply H. now right.
Qed.
Lemma str_lines_escape_all s : str_lines (escape3 s) = map escape3 (str_lines s).
Proof.
  induction s as [s IH] using (induction_ltof1 _ (@length N)); unfold ltof in IH. unfold str_lines in *. destruct (no_break_split s) as [N|(l & r & -> & N)].
  - rewrite !str_lines_last; [|exact N|now apply escape3_no_break]. cbn [app]. destruct s as [|a l]; [reflexivity|].
    destruct (starts_quotes_dec (a :: l)) as [(l' & E) | N']; [rewrite E; reflexivity|]. cbn [map]. now rewrite (escape3_cons _ _ N').
  - rewrite escape3_line, !str_lines_first; [|exact N|now apply escape3_no_break]. cbn [app map]. rewrite strip_cr_escape, IH; [reflexivity|]. rewrite app_length. cbn. lia.
Qed.
(** the printed block string is a string token, whatever the description *)
Definition read_back (n : nat) (s : text) : text := spec_block_value (printed_raw n (str_lines s)).
Lemma print_block_any parse_f64 n s : exists l, print_block n s = write_indent n ++ l ++ newline /\ lexeme parse_f64 (TkStr (read_back n s)) l.
Proof.
  unfold print_block. exists (quotes3 ++ (newline ++ concat (map (fun l => write_indent n ++ l ++ newline) (str_lines (escape3 s))) ++ write_indent n) ++ quotes3). split.
  - unfold quotes3. rewrite <- !app_assoc. reflexivity.
  - apply lx_block. unfold printed_raw, newline. cbn [app]. rewrite str_lines_escape_all, map_map.
    apply bb_char; [intros (q & E); discriminate | intros (q & E); discriminate|].
    pose proof (block_body_lines n (str_lines s) _ _ (block_body_indent n [] [] bb_nil)) as K. rewrite app_nil_r in K. exact K.
Qed.
Lemma read_back_plain n s : ~ In 13%N s -> read_back n s = spec_block_value (10%N :: s).
Proof. intros N. destruct (lined_exists s N) as (ls & H). unfold read_back. now rewrite (printed_value n _ _ H), (given_value _ _ H). Qed.

(** ** Texts that survive *)
Lemma drop_blank_stop l ls : only_white l = false -> drop_blank_lines (l :: ls) = l :: ls.
Proof. intros H. cbn. now rewrite H. Qed.
Lemma trim_stop l ls : only_white l = false -> only_white (last (l :: ls) []) = false -> trim (l :: ls) = l :: ls.
Proof.
  intros H1 H2. unfold trim. rewrite (drop_blank_stop _ _ H1).
  destruct (exists_last (l := l :: ls)) as (ls' & x & E); [congruence|]. rewrite E in *. rewrite last_last in H2. rewrite rev_app_distr. cbn [rev app].
  rewrite (drop_blank_stop _ _ H2). change (rev (x :: rev ls')) with (rev (rev ls') ++ [x]). now rewrite rev_involutive.
Qed.
Lemma least_zero ls l : In l ls -> line_indent l = Some 0 -> least ls = Some 0.
Proof.
  induction ls as [|x ls IH]; [easy|]. intros [->|I] H; cbn [least fold_right]; fold (least ls).
  - rewrite H. destruct (least ls); reflexivity.
  - rewrite (IH I H). destruct (line_indent x); [|reflexivity]. cbn. now rewrite Nat.min_0_r.
Qed.
Lemma skipn_0_map ls : map (@skipn N 0) ls = ls.
Proof. induction ls as [|l ls IH]; [reflexivity|]. cbn [map]. now rewrite IH. Qed.
Lemma trim_fix ls : trim ls = [] \/ exists l r, trim ls = l :: r /\ only_white l = false /\ only_white (last (l :: r) []) = false.
Proof.
  unfold trim. assert (D : forall l, drop_blank_lines l = [] \/ exists x r, drop_blank_lines l = x :: r /\ only_white x = false).
  { induction l as [|x l IH]; [now left|]. cbn. destruct (only_white x) eqn:E; [exact IH|]. right. eauto. }
  assert (S : forall l, exists p, l = p ++ drop_blank_lines l).
  { induction l as [|x l (p & IH)]; [now exists []|]. cbn. destruct (only_white x); [exists (x :: p); cbn; congruence | now exists []]. }
  destruct (D ls) as [E|(x & r & E & W)]; rewrite E; [now left|].
  destruct (S (rev (x :: r))) as (p & Ep). destruct (D (rev (x :: r))) as [E'|(y & q & E' & W')]; rewrite E' in *.
  - now left.
  - right. assert (K : x :: r = rev (y :: q) ++ rev p) by (rewrite <- rev_app_distr, <- Ep; symmetry; apply rev_involutive).
    cbn [rev] in *. destruct (rev q) as [|z q'] eqn:Eq.
    + cbn [app] in *. injection K as -> _. exists y, []. auto.
    + cbn [app] in *. injection K as -> _. exists z, (q' ++ [y]). repeat split; auto. change (z :: q' ++ [y]) with ((z :: q') ++ [y]). now rewrite last_last.
Qed.
Lemma trim_in ls l : In l ls -> only_white l = false -> In l (trim ls).
Proof.
  assert (D : forall ls, In l ls -> only_white l = false -> In l (drop_blank_lines ls)).
  { intros ls' I W. induction ls' as [|x r IH]; [easy|]. cbn. destruct (only_white x) eqn:E; [|exact I]. destruct I as [->|I]; [congruence|auto]. }
  intros I W. unfold trim. apply -> in_rev. apply D; auto. apply -> in_rev. auto.
Qed.
Lemma trim_sub ls l : In l (trim ls) -> In l ls.
Proof.
  assert (D : forall ls, In l (drop_blank_lines ls) -> In l ls).
  { intros ls' I. induction ls' as [|x r IH]; [easy|]. cbn in I. destruct (only_white x); [right; auto | exact I]. }
  unfold trim. intros I. apply D. apply in_rev. apply D. apply in_rev in I. exact I.
Qed.
Lemma least_in ls k : least ls = Some k -> exists l, In l ls /\ line_indent l = Some k.
Proof.
  revert k. induction ls as [|x ls IH]; intros k H; [discriminate|]. cbn [least fold_right] in H. fold (least ls) in H.
  destruct (line_indent x) as [a|] eqn:E, (least ls) as [b|]; cbn in H; try discriminate.
  - injection H as H. destruct (Nat.le_gt_cases a b) as [L|L].
    + rewrite Nat.min_l in H by exact L. subst. exists x. split; [now left | exact E].
    + rewrite Nat.min_r in H by lia. subst. destruct (IH k eq_refl) as (l & I & El). exists l. split; [now right | exact El].
  - injection H as <-. exists x. split; [now left | exact E].
  - destruct (IH k H) as (l & I & El). exists l. split; [now right | exact El].
Qed.
Lemma leading_skip k : forall l, k <= leading_white l -> leading_white (skipn k l) = leading_white l - k.
Proof. induction k as [|k IH]; intros l L; [cbn; lia|]. destruct l as [|c l]; [cbn in *; lia|]. cbn in *. destruct (white c); [|lia]. rewrite IH by lia. lia. Qed.
Lemma line_indent_skip l k : line_indent l = Some k -> line_indent (skipn k l) = Some 0.
Proof.
  unfold line_indent. destruct (Nat.ltb_spec (leading_white l) (length l)) as [L|]; [|discriminate]. intros [= <-]. rewrite leading_skip by lia. rewrite skipn_length.
  replace (leading_white l - leading_white l) with 0 by lia. destruct (Nat.ltb_spec 0 (length l - leading_white l)); [reflexivity|lia].
Qed.
Lemma lined_of_join ls : Forall one_line ls -> ls <> [] -> lined (join_lines ls) ls.
Proof.
  induction 1 as [|l ls H F IH]; [congruence|]. intros _. destruct ls as [|l' ls]; [now constructor|].
  change (join_lines (l :: l' :: ls)) with (l ++ 10%N :: join_lines (l' :: ls)). constructor; [exact H|]. apply IH. congruence.
Qed.
Lemma one_line_skip k l : one_line l -> one_line (skipn k l).
Proof. intros H. unfold one_line in *. rewrite Forall_forall in *. intros x I. apply H. rewrite <- (firstn_skipn k l). apply in_app_iff. now right. Qed.
Lemma one_line_deindent ls : Forall one_line ls -> Forall one_line (deindent ls).
Proof. intros H. unfold deindent. destruct (least ls); [|exact H]. apply Forall_map. eapply Forall_impl; [|exact H]. intros. now apply one_line_skip. Qed.
Lemma value_stable ls : Forall one_line ls -> let v := join_lines (trim (deindent ls)) in exists ls', lined v ls' /\ join_lines (trim (deindent ls')) = v.
Proof.
  intros F v. assert (F' : Forall one_line (trim (deindent ls))).
  { apply one_line_deindent in F. rewrite Forall_forall in *. intros l I. apply F. now apply trim_sub. }
  subst v. destruct (trim_fix (deindent ls)) as [E|(l & r & E & W1 & W2)].
  - rewrite E. exists [[]]. split; [constructor; constructor | reflexivity].
  - exists (trim (deindent ls)). split; [apply lined_of_join; [exact F' | rewrite E; congruence]|].
    assert (Z : least (trim (deindent ls)) = Some 0).
    { destruct (least ls) as [k|] eqn:El.
      - destruct (least_in _ _ El) as (x & I & Ex). apply (least_zero _ (skipn k x)); [|now apply line_indent_skip].
        apply trim_in.
        + unfold deindent. rewrite El. now apply in_map.
        + apply line_indent_skip in Ex. destruct (only_white (skipn k x)) eqn:W; [|reflexivity]. apply line_indent_none in W. congruence.
      - exfalso. unfold deindent in E. rewrite El in E. rewrite (trim_white _ (least_none _ El)) in E. discriminate. }
    unfold deindent at 1. rewrite Z. rewrite skipn_0_map. rewrite E. now rewrite trim_stop.
Qed.
