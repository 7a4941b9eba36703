(** Property C09: descriptions. A description is printed as a block string ([print_block], indented by [n]) and read back as
    the value of a string token. *)
From Coq Require Import String.
From Verif Require Import Base Lexer LexerSpec LexerProofs LexerTokenProofs LexerStreamProofs LexerProps Printer BlockPrintProofs.
From Coq Require Import Lia.
Local Open Scope string_scope.
Local Open Scope list_scope.

(** What comes back, for every description without carriage returns at every indentation: the description with its common
    indentation and its blank lines at both ends removed (what the specification makes of a line break and the description). *)
Theorem c09_read_back : forall recover other_digit parse_f64 n s, ~ In 13%N s ->
  tokens_of recover other_digit parse_f64 (print_block n s) [TkStr (spec_block_value (10%N :: s))].
Proof.
  intros recover other_digit parse_f64 n s N. destruct (print_block_lexeme parse_f64 n s N) as (l & -> & L). apply c05_layout.
  apply source_token; [|exact L| |].
  - induction n; [constructor | apply ignored_blank; [constructor | exact IHn]].
  - intros _ H. discriminate.
  - apply source_end. left. apply ignored_blank; constructor.
Qed.
(** And for every description, with carriage returns or not: it is read back as one string, namely the value the specification
    gives to a line break, the description's lines (as [str::lines] divides it) behind the indentation, and the indentation. *)
Theorem c09_read_back_any : forall recover other_digit parse_f64 n s,
  tokens_of recover other_digit parse_f64 (print_block n s)
    [TkStr (spec_block_value (10%N :: concat (map (fun l => repeat 32%N n ++ l ++ [10%N]) (str_lines s)) ++ repeat 32%N n))].
Proof.
  intros recover other_digit parse_f64 n s. destruct (print_block_any parse_f64 n s) as (l & -> & L). apply c05_layout.
  apply source_token; [|exact L| |].
  - clear L. induction n; [constructor | apply ignored_blank; [constructor | exact IHn]].
  - intros _ H. discriminate.
  - apply source_end. left. apply ignored_blank; constructor.
Qed.
(** so exactly these descriptions survive *)
Theorem c09_survives_iff : forall recover other_digit parse_f64 n s, ~ In 13%N s ->
  (tokens_of recover other_digit parse_f64 (print_block n s) [TkStr s] <-> spec_block_value (10%N :: s) = s).
Proof.
  intros recover other_digit parse_f64 n s N. pose proof (c09_read_back recover other_digit parse_f64 n s N) as H. unfold tokens_of in *. rewrite H. cbn [map]. split; [congruence | intros ->; reflexivity].
Qed.
(** in particular: the first and the last line have something besides white space and some line is not indented *)
Theorem c09_survives_partial : forall recover other_digit parse_f64 n s, ~ In 13%N s ->
  (s = [] \/ (only_white (hd [] (split_lines s)) = false /\ only_white (last (split_lines s) []) = false /\
              exists c l, In (c :: l) (split_lines s) /\ white c = false)) ->
  tokens_of recover other_digit parse_f64 (print_block n s) [TkStr s].
Proof.
  intros recover other_digit parse_f64 n s N H. apply c09_survives_iff; [exact N|]. destruct H as [->|(H1 & H2 & c & l & I & W)]; [reflexivity|].
  destruct (lined_exists s N) as (ls & Hl). rewrite (lined_split _ _ Hl) in *. rewrite (given_value _ _ Hl). unfold deindent.
  rewrite (least_zero ls (c :: l)); [|exact I|unfold line_indent; cbn; rewrite W; reflexivity].
  rewrite skipn_0_map. destruct ls as [|x ls]; [destruct I|]. cbn [hd] in H1. rewrite (trim_stop _ _ H1 H2). now apply lined_join.
Qed.
(** whatever came back once comes back unchanged from then on *)
Theorem c09_stable : forall recover other_digit parse_f64 n s, ~ In 13%N s ->
  let v := spec_block_value (10%N :: s) in tokens_of recover other_digit parse_f64 (print_block n v) [TkStr v].
Proof.
  intros recover other_digit parse_f64 n s N v. destruct (lined_exists s N) as (ls & Hl).
  destruct (value_stable ls (lined_lines _ _ Hl)) as (ls' & H1 & H2). subst v. rewrite (given_value _ _ Hl) in *. rewrite <- (given_value _ _ H1) in H2.
  apply c09_survives_iff; [|exact H2].
  clear H2. intros I. revert I. induction H1 as [l H|l r ls0 H _ IH].
  - intros I. unfold one_line in H. rewrite Forall_forall in H. now apply (H 13%N).
  - intros I. apply in_app_iff in I. destruct I as [I|[I|I]]; [|discriminate|auto]. unfold one_line in H. rewrite Forall_forall in H. now apply (H 13%N).
Qed.
Example c09_case : let s := tx "First" ++ [10%N] ++ tx "  second """"""" ++ [10; 10]%N ++ [92%N] ++ tx """""""" ++ [9%N; 128293%N] in
  ~ In 13%N s /\ only_white (hd [] (split_lines s)) = false /\ only_white (last (split_lines s) []) = false /\
  (exists c l, In (c :: l) (split_lines s) /\ white c = false) /\ split_lines s <> [s].
Proof.
  cbn zeta. split; [vm_compute; intros H; repeat (destruct H as [H|H]; [discriminate|]); exact H|]. split; [reflexivity|]. split; [reflexivity|].
  split; [|vm_compute; discriminate]. exists 70%N, (tx "irst"). split; [left; reflexivity | reflexivity].
Qed.
(** Descriptions that do not survive: an indented line alone, a line break at the end, a carriage return. Each can be written
    in a schema as a string. *)
Theorem c09_indented_refuted : exists s, tokens_of (fun _ => 1) (fun _ => false) (fun _ => None) (print_string s) [TkStr s] /\
  tokens_of (fun _ => 1) (fun _ => false) (fun _ => None) (print_block 0 s) [TkStr (tx "a")] /\ s <> tx "a".
Proof. exists (tx "  a"). split; [apply c01_alone|]. split; [reflexivity|]. discriminate. Qed.
Theorem c09_line_break_refuted : exists s, tokens_of (fun _ => 1) (fun _ => false) (fun _ => None) (print_string s) [TkStr s] /\
  tokens_of (fun _ => 1) (fun _ => false) (fun _ => None) (print_block 0 s) [TkStr (tx "a")] /\ s <> tx "a".
Proof. exists (tx "a" ++ [10%N]). split; [apply c01_alone|]. split; [reflexivity|]. discriminate. Qed.
Theorem c09_carriage_return_refuted : exists s, tokens_of (fun _ => 1) (fun _ => false) (fun _ => None) (print_string s) [TkStr s] /\
  exists v w, tokens_of (fun _ => 1) (fun _ => false) (fun _ => None) (print_block 0 s) [TkStr v] /\
              tokens_of (fun _ => 1) (fun _ => false) (fun _ => None) (print_block 2 s) [TkStr w] /\ v <> s /\ w <> s /\ v <> w.
Proof.
  exists (tx "a" ++ [13%N] ++ tx "b"). split; [apply c01_alone|]. exists (tx "a" ++ [10%N] ++ tx "b"), (tx "  a" ++ [10%N] ++ tx "b").
  repeat split; try reflexivity; discriminate.
Qed.
Print Assumptions c09_read_back. Print Assumptions c09_read_back_any. Print Assumptions c09_survives_iff. Print Assumptions c09_survives_partial. Print Assumptions c09_stable.
Print Assumptions c09_indented_refuted. Print Assumptions c09_line_break_refuted. Print Assumptions c09_carriage_return_refuted.
