(** The value of block strings. *)
From Verif Require Import Base Decimal10 Lexer LexerSpec LexerProofs.

(** ** Lists *)
Lemma position_Some {A} (f : A -> bool) l n : position f l = Some n ->
  n < length l /\ (exists x, nth_error l n = Some x /\ f x = true) /\ Forall (fun x => f x = false) (firstn n l).
Proof.
  revert n; induction l as [|x l IH]; intros n; cbn; [discriminate|].
  destruct (f x) eqn:E.
  - intros [= <-]. split; [lia|]. split; [exists x; auto|constructor].
  - destruct (position f l) as [m|]; [|discriminate]. intros [= <-]. destruct (IH m eq_refl) as (H1 & H2 & H3).
    split; [lia|]. split; [exact H2|]. cbn [firstn]. constructor; auto.
Qed.
Lemma position_None {A} (f : A -> bool) l : position f l = None <-> Forall (fun x => f x = false) l.
Proof.
  induction l as [|x l IH]; cbn; [split; constructor|].
  destruct (f x) eqn:E.
  - split; [discriminate|]. intros H; inversion H; congruence.
  - destruct (position f l) as [n|]; cbn; split; try discriminate.
    + intros H; inversion H as [|? ? H1 H2]; subst. apply IH in H2. discriminate.
    + intros _. constructor; auto. apply IH; auto.
    + auto.
Qed.
Lemma position_app {A} (f : A -> bool) l l' :
  position f (l ++ l') = match position f l with Some n => Some n | None => option_map (Nat.add (length l)) (position f l') end.
Proof.
  induction l as [|x l IH]; cbn; [destruct (position f l'); reflexivity|].
  destruct (f x); auto. rewrite IH. destruct (position f l); cbn; auto. destruct (position f l'); reflexivity.
Qed.
Lemma position_map {A B} (g : A -> B) f l : position f (map g l) = position (fun x => f (g x)) l.
Proof. induction l as [|x l IH]; cbn; auto. rewrite IH. reflexivity. Qed.
Lemma position_ext {A} (f g : A -> bool) l : Forall (fun x => f x = g x) l -> position f l = position g l.
Proof. induction 1 as [|x l H HF IH]; cbn; auto. rewrite H, IH. reflexivity. Qed.
Lemma position_firstn {A} (f : A -> bool) l m : forall n, position f l = Some n -> n < m -> position f (firstn m l) = Some n.
Proof.
  revert m; induction l as [|x l IH]; intros m n; cbn; [discriminate|].
  destruct m as [|m]; [lia|]. cbn. destruct (f x); auto.
  destruct (position f l) as [k|] eqn:E; [|discriminate]. intros [= <-] Hlt. rewrite (IH m k); auto. lia.
Qed.
Lemma list_min_filter (l : list (option nat)) : list_min (filter_some l) = fold_right opt_min None l.
Proof.
  assert (K : forall l x, fold_left Nat.min l x = match list_min l with Some m => Nat.min x m | None => x end).
  { clear. induction l as [|y l IH]; intros x; cbn; auto. rewrite (IH (Nat.min x y)), (IH y). destruct (list_min l); lia. }
  assert (M : forall x l, list_min (x :: l) = opt_min (Some x) (list_min l)).
  { intros x l0. cbn [list_min]. rewrite K. destruct (list_min l0); reflexivity. }
  induction l as [|o l IH]; cbn [fold_right]; auto.
  destruct o as [x|]; cbn [filter_some flat_map app].
  - change (list_min (x :: filter_some l) = opt_min (Some x) (fold_right opt_min None l)). rewrite M, IH. reflexivity.
  - exact IH.
Qed.

(** ** Lines of tokens and lines of text *)
Definition good_token (t : block_token) : Prop :=
  match t with BSpace c => white c = true | BChars (c :: _) => white c = false | BChars [] => False | BEscaped => True end.
Definition line_text (l : list block_token) : text := concat (map bt_text l).
Notation good_line := (Forall good_token).

Lemma leading_white_le l : leading_white l <= length l.
Proof. induction l as [|c l IH]; cbn; [lia|]. destruct (white c); lia. Qed.
Lemma line_indent_position l : good_line l -> position (fun t => negb (bt_space t)) l = line_indent (line_text l).
Proof.
  unfold line_indent. induction 1 as [|t l Ht H IH]; [reflexivity|].
  unfold line_text. cbn [map concat]. fold (line_text l). destruct t as [[|c s]|c|]; cbn in Ht; try contradiction.
  - cbn [position bt_space negb bt_text app leading_white length]. rewrite Ht. reflexivity.
  - cbn [position bt_space negb bt_text app leading_white length]. rewrite Ht, IH.
    change (S ?a <? S ?b) with (a <? b). destruct (leading_white (line_text l) <? length (line_text l)); reflexivity.
  - reflexivity.
Qed.
Lemma has_content_line l : good_line l -> existsb (fun t => negb (bt_space t)) l = negb (only_white (line_text l)).
Proof.
  induction 1 as [|t l Ht H IH]; [reflexivity|].
  unfold line_text. cbn [map concat]. fold (line_text l). destruct t as [[|c s]|c|]; cbn in Ht; try contradiction.
  - cbn [existsb bt_space negb bt_text app only_white forallb orb]. rewrite Ht. reflexivity.
  - cbn [existsb bt_space negb bt_text app only_white forallb orb]. rewrite Ht, IH. reflexivity.
  - reflexivity.
Qed.
Lemma skipn_line l : good_line l -> forall n,
  (n <= leading_white (line_text l) \/ only_white (line_text l) = true) -> line_text (skipn n l) = skipn n (line_text l).
Proof.
  induction 1 as [|t l Ht H IH]; intros n Hn; [destruct n; reflexivity|].
  destruct n as [|n]; [reflexivity|].
  unfold line_text in Hn |- *. cbn [map concat skipn] in Hn |- *. fold (line_text l) in Hn |- *.
  destruct t as [[|c s]|c|]; cbn in Ht; try contradiction.
  - cbn [bt_text app leading_white only_white forallb] in Hn. rewrite Ht in Hn. destruct Hn; [lia|discriminate].
  - cbn [bt_text app leading_white only_white forallb] in Hn. rewrite Ht in Hn. cbn [bt_text app skipn].
    apply IH. destruct Hn as [Hn|Hn]; [left; lia|right; exact Hn].
  - cbn in Hn. destruct Hn; [lia|discriminate].
Qed.
Lemma good_skipn n l : good_line l -> good_line (skipn n l).
Proof. intros H. rewrite <- (firstn_skipn n l) in H. apply Forall_app in H. apply H. Qed.
Lemma leading_only l : leading_white l < length l <-> only_white l = false.
Proof.
  induction l as [|c l IH]; cbn; [split; [lia|discriminate]|].
  destruct (white c); cbn; [rewrite <- IH; lia|split; auto; lia].
Qed.

(** ** Joining and trimming *)
Lemma join_lines_mapi ls : join_lines ls = concat (mapi (fun k l => (if Nat.eqb k 0 then [] else [c_newline]) ++ l) ls).
Proof.
  assert (K : forall ls i, concat (mapi_from (fun k l => (if Nat.eqb k 0 then [] else [c_newline]) ++ l) (S i) ls) =
                           match ls with [] => [] | _ => 10%N :: join_lines ls end).
  { clear. induction ls as [|l ls IH]; intros i; [reflexivity|].
    cbn [mapi_from concat]. rewrite IH. destruct ls as [|l' ls]; [cbn; rewrite app_nil_r; reflexivity|reflexivity]. }
  destruct ls as [|l ls]; [reflexivity|]. unfold mapi. cbn [mapi_from concat]. rewrite K.
  destruct ls as [|l' ls]; [cbn; rewrite app_nil_r; reflexivity|reflexivity].
Qed.
Lemma drop_blank_position ls : drop_blank_lines ls = match position (fun l => negb (only_white l)) ls with Some n => skipn n ls | None => [] end.
Proof.
  induction ls as [|l ls IH]; [reflexivity|]. cbn. destruct (only_white l); cbn; [|reflexivity].
  rewrite IH. destruct (position _ ls); reflexivity.
Qed.
Lemma trim_slice (L : list text) : forall start e,
  position (fun l => negb (only_white l)) L = Some start -> position (fun l => negb (only_white l)) (rev L) = Some e ->
  rev (drop_blank_lines (rev (drop_blank_lines L))) = firstn (length L - e - start) (skipn start L).
Proof.
  intros start e Hs He. rewrite (drop_blank_position L), Hs.
  pose proof (position_Some _ _ _ Hs) as (Hs1 & (x & Hx & Hfx) & _).
  pose proof (position_Some _ _ _ He) as (He1 & (y & Hy & Hfy) & Hfe). rewrite rev_length in He1.
  assert (Hlt : e < length L - start).
  { destruct (Nat.lt_ge_cases e (length L - start)) as [|Hge]; auto. exfalso.
    (* position start of L is position length L - 1 - start of rev L *)
    assert (Hr : nth_error (rev L) (length L - 1 - start) = Some x).
    { apply nth_error_split in Hx. destruct Hx as (l1 & l2 & -> & Hl1).
      rewrite rev_app_distr. cbn [rev]. rewrite app_length. cbn [length].
      rewrite nth_error_app1 by (rewrite app_length, rev_length; cbn; lia).
      rewrite nth_error_app2 by (rewrite rev_length; lia).
      rewrite rev_length. replace (length l1 + S (length l2) - 1 - start - length l2) with 0 by lia. reflexivity. }
    assert (Hin : In x (firstn e (rev L))).
    { apply (nth_error_In _ (length L - 1 - start)). rewrite <- Hr.
      rewrite <- (firstn_skipn e (rev L)) at 2. rewrite nth_error_app1; [reflexivity|]. rewrite firstn_length, rev_length. lia. }
    rewrite Forall_forall in Hfe. apply Hfe in Hin. congruence. }
  rewrite (drop_blank_position (rev (skipn start L))).
  assert (E : rev (skipn start L) = firstn (length L - start) (rev L)) by (rewrite firstn_rev; do 2 f_equal; lia).
  rewrite E, (position_firstn _ _ _ e He Hlt), <- E.
  rewrite <- (rev_involutive (skipn start L)) at 2.
  rewrite firstn_rev. rewrite rev_length, skipn_length. do 2 f_equal. lia.
Qed.

Lemma fold_opt_min_le (os : list (option nat)) n : fold_right opt_min None os = Some n -> forall m, In (Some m) os -> n <= m.
Proof.
  revert n; induction os as [|o os IH]; cbn; [discriminate|]. intros n H m [->|Hin].
  - cbn in H. destruct (fold_right opt_min None os); injection H as <-; lia.
  - destruct (fold_right opt_min None os) as [k|] eqn:E.
    + specialize (IH k eq_refl m Hin). destruct o; cbn in H; injection H as <-; lia.
    + exfalso. clear -E Hin. induction os as [|o' os IH]; [destruct Hin|]. cbn in E.
      destruct (fold_right opt_min None os); destruct o'; cbn in E; try discriminate.
      destruct Hin as [Hin|Hin]; [discriminate|auto].
Qed.
Lemma mapi_from_S {A B} (f : nat -> A -> B) l : forall i, mapi_from f (S i) l = mapi_from (fun k => f (S k)) i l.
Proof. induction l as [|x l IH]; intros i; cbn; [reflexivity|]. rewrite IH. reflexivity. Qed.
Lemma mapi_from_const {A B} (f : A -> B) l i : mapi_from (fun _ => f) i l = map f l.
Proof. revert i; induction l as [|x l IH]; intros i; cbn; congruence. Qed.
Lemma mapi_from_ext {A B} (f g : nat -> A -> B) l : (forall k x, f k x = g k x) -> forall i, mapi_from f i l = mapi_from g i l.
Proof. intros H. induction l as [|x l IH]; intros i; cbn; [reflexivity|]. rewrite H, IH. reflexivity. Qed.
Lemma mapi_from_skipn {A B} (f : nat -> A -> B) l : forall i n, skipn n (mapi_from f i l) = mapi_from f (i + n) (skipn n l).
Proof.
  induction l as [|x l IH]; intros i n; destruct n; cbn; auto; [rewrite Nat.add_0_r; reflexivity|].
  rewrite IH. f_equal. lia.
Qed.
Lemma mapi_from_firstn {A B} (f : nat -> A -> B) l : forall i n, firstn n (mapi_from f i l) = mapi_from f i (firstn n l).
Proof. induction l as [|x l IH]; intros i n; destruct n; cbn; auto. rewrite IH. reflexivity. Qed.
Lemma mapi_from_mapi_from {A B C} (f : nat -> A -> B) (g : nat -> B -> C) l : forall i j,
  mapi_from g i (mapi_from f j l) = mapi_from (fun k x => g k (f (j + (k - i)) x)) i l.
Proof.
  assert (K : forall l i0 i j, i0 <= i -> mapi_from g i (mapi_from f (j + (i - i0)) l) = mapi_from (fun k x => g k (f (j + (k - i0)) x)) i l).
  { clear. induction l as [|x l IH]; intros i0 i j H; cbn; [reflexivity|]. f_equal.
    rewrite <- (IH i0 (S i) j) by lia. do 2 f_equal. lia. }
  intros i j. rewrite <- (K l i i j) by lia. f_equal. f_equal. lia.
Qed.
Lemma mapi_from_length {A B} (f : nat -> A -> B) l : forall i, length (mapi_from f i l) = length l.
Proof. induction l as [|x l IH]; intros i; cbn; auto. Qed.

Theorem block_value_spec ls : Forall good_line ls ->
  block_string_value ls = join_lines (rev (drop_blank_lines (rev (drop_blank_lines (remove_indent (map line_text ls)))))).
Proof.
  intros Hg. destruct ls as [|l0 ls]; [reflexivity|].
  inversion Hg as [|? ? Hg0 Hgs]; subst.
  unfold block_string_value. cbn [tl]. cbn zeta.
  rewrite list_min_filter.
  assert (Ec : fold_right opt_min None (map (position (fun t => negb (bt_space t))) ls) = common_indent_of (map line_text (l0 :: ls))).
  { unfold common_indent_of. cbn [map tl]. clear Hg. induction Hgs as [|l ls Hl Hls IH]; cbn [map fold_right]; [reflexivity|].
    rewrite IH, line_indent_position by auto. reflexivity. }
  rewrite Ec.
  set (n := match common_indent_of (map line_text (l0 :: ls)) with Some n => n | None => 0 end).
  set (indent := fun i => if Nat.eqb i 0 then 0 else n).
  set (L := mapi (fun i l => line_text (skipn (indent i) l)) (l0 :: ls)).
  assert (EL : L = line_text l0 :: map (fun l => line_text (skipn n l)) ls).
  { unfold L, mapi. cbn [mapi_from]. f_equal. rewrite mapi_from_S. unfold indent. cbn [Nat.eqb]. apply mapi_from_const. }
  assert (Hcut : forall l, In l ls -> n <= leading_white (line_text l) \/ only_white (line_text l) = true).
  { intros l Hl. unfold n. rewrite <- Ec. destruct (fold_right _ _ _) as [k|] eqn:E; [|left; lia].
    rewrite Forall_forall in Hgs. destruct (only_white (line_text l)) eqn:Eo; [right; reflexivity|left].
    apply (fold_opt_min_le _ _ E). apply in_map_iff. exists l. split; [|exact Hl]. rewrite line_indent_position by auto.
    unfold line_indent. apply leading_only in Eo. apply Nat.ltb_lt in Eo. rewrite Eo. reflexivity. }
  assert (ER : remove_indent (map line_text (l0 :: ls)) = L).
  { rewrite EL. unfold remove_indent. fold n. unfold n in *. destruct (common_indent_of (map line_text (l0 :: ls))) as [k|] eqn:E.
    - cbn [map]. f_equal. rewrite map_map. apply map_ext_in. intros l Hl. symmetry. apply skipn_line; auto.
      rewrite Forall_forall in Hgs; auto.
    - cbn [map]. f_equal. }
  rewrite ER.
  assert (Efront : position (fun il => existsb (fun t => negb (bt_space t)) (skipn (indent (fst il)) (snd il))) (mapi pair (l0 :: ls)) =
                   position (fun l => negb (only_white l)) L).
  { assert (J : forall xs i, Forall good_line xs ->
      position (fun il => existsb (fun t => negb (bt_space t)) (skipn (indent (fst il)) (snd il))) (mapi_from pair i xs) =
      position (fun l => negb (only_white l)) (mapi_from (fun i l => line_text (skipn (indent i) l)) i xs)).
    { intros xs i H; revert i. induction H as [|l xs Hl H IH]; intros i; cbn [mapi_from position]; [reflexivity|].
      cbn [fst snd]. rewrite has_content_line by (apply good_skipn; auto). rewrite IH. reflexivity. }
    apply J. exact Hg. }
  assert (Eback : position (fun line => existsb (fun t => negb (bt_space t)) (skipn n line)) (rev (l0 :: ls)) =
                  position (fun l => negb (only_white l)) (rev L)).
  { rewrite EL. cbn [rev]. rewrite !position_app, <- map_rev, position_map.
    assert (P : position (fun line => existsb (fun t => negb (bt_space t)) (skipn n line)) (rev ls) =
                position (fun x => negb (only_white (line_text (skipn n x)))) (rev ls)).
    { apply position_ext. apply Forall_forall. intros l Hl. apply in_rev in Hl. rewrite Forall_forall in Hgs.
      apply has_content_line. apply good_skipn; auto. }
    rewrite P. clear P.
    destruct (position (fun x => negb (only_white (line_text (skipn n x)))) (rev ls)) as [m|] eqn:E; [reflexivity|].
    assert (n = 0) as ->.
    { unfold n. rewrite <- Ec. destruct (fold_right _ _ _) as [k|] eqn:Ek; [|reflexivity]. exfalso.
      rewrite position_None, Forall_forall in E.
      assert (K : exists l m, In l ls /\ line_indent (line_text l) = Some m).
      { clear -Ek Hgs. revert k Ek. induction Hgs as [|l ls Hl Hls IH]; cbn [map fold_right]; intros k Ek; [discriminate|].
        rewrite line_indent_position in Ek by auto. destruct (line_indent (line_text l)) as [m|] eqn:El.
        - exists l, m. split; [left; reflexivity|exact El].
        - destruct (fold_right _ _ _) as [k'|] eqn:E'; [|discriminate]. destruct (IH k' eq_refl) as (l' & m & Hin & Hm).
          exists l', m. split; [right; auto|auto]. }
      destruct K as (l & m & Hin & Hm). specialize (E l ltac:(apply -> in_rev; exact Hin)).
      rewrite negb_false_iff in E. unfold line_indent in Hm.
      destruct (Nat.ltb_spec (leading_white (line_text l)) (length (line_text l))) as [Hlt|]; [|discriminate].
      apply leading_only in Hlt. destruct (Hcut l Hin) as [Hc|Hc]; [|congruence].
      rewrite Forall_forall in Hgs. rewrite skipn_line in E by auto.
      rewrite <- (firstn_skipn n (line_text l)) in Hlt. unfold only_white in *. rewrite forallb_app in Hlt.
      rewrite E, andb_true_r in Hlt. apply not_true_iff_false in Hlt. apply Hlt. clear -Hc.
      revert Hc. generalize (line_text l) n. clear. intros l; induction l as [|c l IH]; intros n Hn; destruct n; cbn in *; auto.
      destruct (white c); [|lia]. cbn. apply IH. lia. }
    cbn [skipn position]. rewrite has_content_line by auto. rewrite map_length. reflexivity. }
  unfold indent in Efront at 1. cbn beta in Efront. rewrite Efront, Eback.
  destruct (position _ L) as [start|] eqn:Es; destruct (position _ (rev L)) as [e|] eqn:Ee.
  - rewrite (trim_slice L start e Es Ee). rewrite join_lines_mapi.
    assert (Hlen : length L = length (l0 :: ls)) by (unfold L, mapi; apply mapi_from_length). rewrite Hlen.
    f_equal. unfold mapi at 1 2. unfold L. unfold mapi. rewrite mapi_from_skipn, mapi_from_firstn. cbn [Nat.add].
    rewrite mapi_from_mapi_from. apply mapi_from_ext. intros k x. rewrite Nat.sub_0_r. reflexivity.
  - rewrite (drop_blank_position L), Es. apply position_None in Ee.
    pose proof (position_Some _ _ _ Es) as (_ & (x & Hx & Hfx) & _). rewrite Forall_forall in Ee.
    apply nth_error_In in Hx. rewrite (Ee x) in Hfx; [discriminate|]. apply in_rev. rewrite rev_involutive. exact Hx.
  - rewrite (drop_blank_position L), Es. reflexivity.
  - rewrite (drop_blank_position L), Es. reflexivity.
Qed.

(** ** The tokens of a block string *)
Definition attach (p : text) (ls : list text) : list text := match ls with [] => [p] | l :: ls' => (p ++ l) :: ls' end.
Lemma attach_attach p q ls : attach p (attach q ls) = attach (p ++ q) ls.
Proof. destruct ls as [|l ls]; cbn; [reflexivity|]. rewrite app_assoc. reflexivity. Qed.
Lemma attach_nil ls : ls <> [] -> attach [] ls = ls.
Proof. destruct ls; [congruence|reflexivity]. Qed.
Lemma split_lines_nil s : split_lines s <> [].
Proof.
  destruct s as [|c s]; cbn; [discriminate|]. destruct (N.eqb c 13).
  - destruct s as [|d s]; [discriminate|]. destruct (N.eqb d 10); discriminate.
  - destruct (N.eqb c 10); [discriminate|]. destruct (split_lines s); discriminate.
Qed.
Lemma split_lines_char c s : ~ line_end c -> split_lines (c :: s) = attach [c] (split_lines s).
Proof.
  unfold line_end. intros H. cbn. rewrite (proj2 (N.eqb_neq c 13)), (proj2 (N.eqb_neq c 10)) by tauto.
  destruct (split_lines s) eqn:E; [exfalso; exact (split_lines_nil s E)|reflexivity].
Qed.
Lemma split_lines_run l s : Forall (fun c => ~ line_end c) l -> split_lines (l ++ s) = attach l (split_lines s).
Proof.
  induction 1 as [|c l Hc H IH]; [cbn; symmetry; apply attach_nil, split_lines_nil|].
  cbn [app]. rewrite split_lines_char, IH, attach_attach by auto. reflexivity.
Qed.
Lemma split_lines_lf s : split_lines (10%N :: s) = [] :: split_lines s. Proof. reflexivity. Qed.
Lemma split_lines_crlf s : split_lines (13%N :: 10%N :: s) = [] :: split_lines s. Proof. reflexivity. Qed.
Lemma split_lines_cr s : ~ first_is (fun c => c = 10%N) s -> split_lines (13%N :: s) = [] :: split_lines s.
Proof. destruct s as [|d s]; [reflexivity|]. cbn [first_is]. intros H. cbn. rewrite (proj2 (N.eqb_neq d 10)) by auto. reflexivity. Qed.
Lemma line_text_app a b : line_text (a ++ b) = line_text a ++ line_text b.
Proof. unfold line_text. rewrite map_app, concat_app. reflexivity. Qed.

Lemma is_block_char_iff c : is_block_char c = true <-> from_source c.
Proof.
  unfold is_block_char, from_source, line_end, c_backslash, c_quote, c_newline, c_return.
  rewrite negb_true_iff, !orb_false_iff, !N.eqb_neq. tauto.
Qed.
Lemma bb_plain c b v : c <> 34%N -> c <> 92%N -> block_body b v -> block_body (c :: b) (c :: v).
Proof. intros H1 H2. apply bb_char; intros [r E]; injection E as E _; congruence. Qed.
Lemma bb_run l b v : Forall from_source l -> block_body b v -> block_body (l ++ b) (l ++ v).
Proof. intros H Hb. induction H as [|c l (H1 & H2 & _) H IH]; auto. apply bb_plain; auto. Qed.
Lemma bb_char_inv c b v : c <> 92%N -> block_body (c :: b) v -> exists v', v = c :: v' /\ block_body b v'.
Proof.
  intros Hc H. inversion H; subst.
  - exfalso. apply Hc. reflexivity.
  - eauto.
Qed.
Lemma bb_run_inv l : Forall from_source l -> forall b v, block_body (l ++ b) v -> exists v', v = l ++ v' /\ block_body b v'.
Proof.
  induction 1 as [|c l (H1 & H2 & _) H IH]; intros b v Hb; [exists v; auto|].
  cbn in Hb. apply bb_char_inv in Hb; auto. destruct Hb as (v' & -> & Hb). apply IH in Hb. destruct Hb as (v'' & -> & Hb). exists v''. auto.
Qed.
Lemma starts_with_app l a b : length l <= length a -> starts_with l (a ++ b) -> starts_with l a.
Proof.
  intros Hl [r E]. exists (skipn (length l) a).
  rewrite <- (firstn_skipn (length l) a) at 1. f_equal.
  apply (f_equal (firstn (length l))) in E. rewrite firstn_app, firstn_app, Nat.sub_diag, firstn_all in E.
  replace (length l - length a) with 0 in E by lia. cbn [firstn] in E. rewrite !app_nil_r in E. exact E.
Qed.
Lemma starts_with_more l a b : starts_with l a -> starts_with l (a ++ b).
Proof. intros [r ->]. exists (r ++ b). rewrite app_assoc. reflexivity. Qed.

(** no fuel is needed beyond the length of the text *)
Lemma lex_block_fuel : forall f1 f2 s lines line, length s <= f1 -> length s <= f2 -> lex_block f1 s lines line = lex_block f2 s lines line.
Proof.
  induction f1 as [|f1 IH]; intros f2 s lines line H1 H2.
  - destruct s; [|cbn in H1; lia]. destruct f2; reflexivity.
  - destruct s as [|c s]; [destruct f2; reflexivity|]. destruct f2 as [|f2]; [cbn in H2; lia|].
    cbn [length] in *. cbn [lex_block].
    destruct (strip_prefix [c_quote; c_quote; c_quote] (c :: s)) eqn:E1; [reflexivity|].
    destruct (strip_prefix [c_backslash; c_quote; c_quote; c_quote] (c :: s)) as [r|] eqn:E2.
    { apply strip_prefix_Some in E2. apply (f_equal (@length N)) in E2. cbn in E2. apply IH; lia. }
    destruct (N.eqb_spec c c_newline); [apply IH; lia|].
    destruct (N.eqb_spec c c_return).
    { destruct s as [|d s]; [apply IH; cbn in *; lia|]. cbn [length] in *. destruct (N.eqb d c_newline); apply IH; cbn [length]; lia. }
    destruct (is_indent c); [apply IH; lia|].
    destruct (N.eqb c c_quote || N.eqb c c_backslash) eqn:E3; [apply IH; lia|].
    assert (E4 : is_block_char c = true).
    { apply is_block_char_iff. apply orb_false_iff in E3. rewrite !N.eqb_neq in E3. unfold from_source, line_end. unfold c_quote, c_backslash, c_newline, c_return in *. tauto. }
    cbn [drop_while take_while]. rewrite E4. pose proof (dw_length is_block_char s). apply IH; lia.
Qed.

Definition lblock (s : text) (lines : list (list block_token)) (line : list block_token) := lex_block (length s) s lines line.
Lemma lblock_cons c s lines line : lblock (c :: s) lines line =
  match strip_prefix quotes3 (c :: s) with
  | Some r => BlockLines (lines ++ [line]) r
  | None =>
      match strip_prefix escaped3 (c :: s) with
      | Some r => lblock r lines (line ++ [BEscaped])
      | None =>
          if N.eqb c 10 then lblock s (lines ++ [line]) []
          else if N.eqb c 13 then
                 match s with
                 | d :: s' => if N.eqb d 10 then lblock s' (lines ++ [line]) [] else lblock s (lines ++ [line]) []
                 | [] => lblock s (lines ++ [line]) []
                 end
          else if is_indent c then lblock s lines (line ++ [BSpace c])
          else if N.eqb c 34 || N.eqb c 92 then lblock s lines (line ++ [BChars [c]])
          else lblock (drop_while is_block_char s) lines (line ++ [BChars (c :: take_while is_block_char s)])
      end
  end.
Proof.
  unfold lblock, quotes3, escaped3. cbn [length lex_block]. unfold c_quote, c_backslash, c_newline, c_return.
  destruct (strip_prefix [34; 34; 34]%N (c :: s)) eqn:E1; [reflexivity|].
  change (92%N :: quotes3) with [92; 34; 34; 34]%N.
  destruct (strip_prefix [92; 34; 34; 34]%N (c :: s)) as [r|] eqn:E2.
  { apply strip_prefix_Some in E2. apply (f_equal (@length N)) in E2. cbn in E2. apply lex_block_fuel; lia. }
  destruct (N.eqb_spec c 10); [reflexivity|].
  destruct (N.eqb_spec c 13).
  { destruct s as [|d s]; [reflexivity|]. destruct (N.eqb d 10); [apply lex_block_fuel; cbn; lia|reflexivity]. }
  destruct (is_indent c); [reflexivity|].
  destruct (N.eqb c 34 || N.eqb c 92) eqn:E3; [reflexivity|].
  assert (E4 : is_block_char c = true).
  { apply is_block_char_iff. apply orb_false_iff in E3. rewrite !N.eqb_neq in E3. unfold from_source, line_end. tauto. }
  cbn [drop_while take_while]. rewrite E4. pose proof (dw_length is_block_char s). apply lex_block_fuel; lia.
Qed.

Definition lines_of (lines : list (list block_token)) (line : list block_token) (raw : text) (ls : list (list block_token)) : Prop :=
  map line_text ls = map line_text lines ++ attach (line_text line) (split_lines raw) /\
  (Forall good_line lines -> good_line line -> Forall good_line ls).

Lemma good_snoc line t : good_line line -> good_token t -> good_line (line ++ [t]).
Proof. intros. apply Forall_app. auto. Qed.
Lemma good_snoc_line lines line : Forall good_line lines -> good_line line -> Forall good_line (lines ++ [line]).
Proof. intros. apply Forall_app. auto. Qed.
Lemma lines_of_token lines line t raw ls l : good_token t -> bt_text t = l -> Forall (fun c => ~ line_end c) l ->
  lines_of lines (line ++ [t]) raw ls -> lines_of lines line (l ++ raw) ls.
Proof.
  intros Ht Hl Hne (H1 & H2). split.
  - rewrite H1, split_lines_run, attach_attach, line_text_app by auto. unfold line_text at 3. cbn [map concat]. rewrite app_nil_r, Hl. reflexivity.
  - intros G1 G2. apply H2; auto. apply good_snoc; auto.
Qed.
Lemma lines_of_newline lines line raw ls : lines_of (lines ++ [line]) [] raw ls ->
  map line_text ls = map line_text lines ++ attach (line_text line) ([] :: split_lines raw) /\
  (Forall good_line lines -> good_line line -> Forall good_line ls).
Proof.
  intros (H1 & H2). split.
  - rewrite H1, map_app, <- app_assoc. cbn [map app attach line_text concat]. rewrite app_nil_r, attach_nil by apply split_lines_nil. reflexivity.
  - intros G1 G2. apply H2; [apply good_snoc_line; auto|constructor].
Qed.
Lemma is_indent_white c : is_indent c = white c.
Proof. unfold is_indent, white, c_space, c_tab. apply orb_comm. Qed.

Lemma lblock_sound : forall n s, length s <= n -> forall lines line ls r, lblock s lines line = BlockLines ls r ->
  exists body raw, block_body body raw /\ s = body ++ quotes3 ++ r /\ lines_of lines line raw ls.
Proof.
  induction n as [|n IH]; intros s Hn lines line ls r H; destruct s as [|c s]; try (cbn in Hn; lia); try discriminate.
  cbn [length] in Hn. rewrite lblock_cons in H.
  destruct (strip_prefix quotes3 (c :: s)) as [r1|] eqn:E1.
  { apply strip_prefix_Some in E1. injection H as <- <-. exists [], []. split; [constructor|]. split; [exact E1|].
    split; [rewrite map_app; cbn; rewrite app_nil_r; reflexivity|]. intros. apply good_snoc_line; auto. }
  apply strip_prefix_None in E1.
  destruct (strip_prefix escaped3 (c :: s)) as [r1|] eqn:E2.
  { apply strip_prefix_Some in E2. pose proof (f_equal (@length N) E2) as Hl. cbn in Hl.
    apply IH in H; [|lia]. destruct H as (b & v & Hb & -> & Hls).
    exists (escaped3 ++ b), (quotes3 ++ v). split; [constructor; auto|]. split; [rewrite E2, <- app_assoc; reflexivity|].
    eapply lines_of_token; [| |  |exact Hls]; [exact I|reflexivity|]. repeat constructor; unfold line_end; lia. }
  apply strip_prefix_None in E2.
  destruct (N.eqb_spec c 10) as [->|N1].
  { apply IH in H; [|lia]. destruct H as (b & v & Hb & -> & Hls).
    exists (10%N :: b), (10%N :: v). split; [apply bb_plain; auto; lia|]. split; [reflexivity|].
    unfold lines_of. rewrite split_lines_lf. apply lines_of_newline. exact Hls. }
  destruct (N.eqb_spec c 13) as [->|N2].
  { destruct s as [|d s].
    - discriminate H.
    - destruct (N.eqb_spec d 10) as [->|N3].
      + cbn [length] in Hn. apply IH in H; [|lia]. destruct H as (b & v & Hb & -> & Hls).
        exists (13%N :: 10%N :: b), (13%N :: 10%N :: v). split; [do 2 (apply bb_plain; [lia|lia|]); auto|]. split; [reflexivity|].
        unfold lines_of. rewrite split_lines_crlf. apply lines_of_newline. exact Hls.
      + apply IH in H; [|lia]. destruct H as (b & v & Hb & Es & Hls).
        exists (13%N :: b), (13%N :: v). split; [apply bb_plain; auto; lia|]. split; [rewrite Es; reflexivity|].
        unfold lines_of. rewrite split_lines_cr; [apply lines_of_newline; exact Hls|].
        inversion Hb; subst; cbn [first_is]; auto.
        * intros K. discriminate K.
        * injection Es as -> _. exact N3. }
  destruct (is_indent c) eqn:E3.
  { apply IH in H; [|lia]. destruct H as (b & v & Hb & -> & Hls). rewrite is_indent_white in E3.
    assert (Hc : c = 32%N \/ c = 9%N). { unfold white in E3. rewrite orb_true_iff, !N.eqb_eq in E3. tauto. }
    exists (c :: b), (c :: v). split; [apply bb_plain; auto; lia|]. split; [reflexivity|].
    change (c :: v) with ([c] ++ v). eapply lines_of_token; [| | |exact Hls]; [exact E3|reflexivity|].
    repeat constructor. unfold line_end. lia. }
  destruct (N.eqb c 34 || N.eqb c 92) eqn:E4.
  { apply IH in H; [|lia]. destruct H as (b & v & Hb & -> & Hls).
    assert (Hc : c = 34%N \/ c = 92%N). { rewrite orb_true_iff, !N.eqb_eq in E4. tauto. }
    exists (c :: b), (c :: v). split.
    - apply bb_char; auto; intros K; apply (starts_with_more _ _ r) in K; cbn [app] in K; rewrite <- app_assoc in K; tauto.
    - split; [reflexivity|]. change (c :: v) with ([c] ++ v). eapply lines_of_token; [| | |exact Hls]; [|reflexivity|].
      + cbn. unfold white. destruct Hc as [-> | ->]; reflexivity.
      + repeat constructor. unfold line_end. lia. }
  assert (Hc : from_source c). { apply orb_false_iff in E4. rewrite !N.eqb_neq in E4. unfold from_source, line_end. tauto. }
  pose proof (dw_length is_block_char s) as Hd.
  apply IH in H; [|lia]. destruct H as (b & v & Hb & Es & Hls).
  pose proof (tw_all is_block_char s) as Ha. set (l := take_while is_block_char s) in *.
  assert (Hl : Forall from_source (c :: l)).
  { constructor; [exact Hc|]. eapply Forall_impl; [|exact Ha]. intros x. apply is_block_char_iff. }
  exists ((c :: l) ++ b), ((c :: l) ++ v). split; [apply bb_run; auto|]. split.
  - rewrite <- (tw_dw is_block_char s), Es. fold l. rewrite <- app_assoc. reflexivity.
  - eapply lines_of_token; [| | |exact Hls]; [|reflexivity|].
    + cbn. rewrite <- is_indent_white. exact E3.
    + eapply Forall_impl; [|exact Hl]. intros x Hx. apply Hx.
Qed.

Lemma lblock_complete : forall n body, length body <= n -> forall raw lines line r, block_body body raw ->
  exists ls, lblock (body ++ quotes3 ++ r) lines line = BlockLines ls r /\ lines_of lines line raw ls.
Proof.
  induction n as [|n IH]; intros body Hn raw lines line r Hb.
  - destruct body; [|cbn in Hn; lia]. inversion Hb; subst. exists (lines ++ [line]). split; [reflexivity|].
    split; [rewrite map_app; cbn; rewrite app_nil_r; reflexivity|]. intros. apply good_snoc_line; auto.
  - inversion Hb as [|b v Hb'|c b v Hn3 Hn4 Hb']; subst.
    + exists (lines ++ [line]). split; [reflexivity|].
      split; [rewrite map_app; cbn; rewrite app_nil_r; reflexivity|]. intros. apply good_snoc_line; auto.
    + rewrite app_length in Hn. cbn in Hn. destruct (IH b ltac:(lia) v lines (line ++ [BEscaped]) r Hb') as (ls & E & Hls).
      exists ls. split; [cbn [escaped3 quotes3 app]; rewrite lblock_cons; exact E|]. eapply lines_of_token; [| | |exact Hls]; [exact I|reflexivity|]. repeat constructor; unfold line_end; lia.
    + cbn [app length] in *. rewrite lblock_cons.
      assert (E1 : strip_prefix quotes3 (c :: b ++ quotes3 ++ r) = None).
      { apply strip_prefix_None. intros K. apply Hn3. apply (starts_with_app _ _ r); [cbn; rewrite app_length; cbn; lia|].
        cbn [app]. rewrite <- app_assoc. exact K. }
      assert (E2 : strip_prefix escaped3 (c :: b ++ quotes3 ++ r) = None).
      { apply strip_prefix_None. intros K. apply Hn4. apply (starts_with_app _ _ r); [cbn; rewrite app_length; cbn; lia|].
        cbn [app]. rewrite <- app_assoc. exact K. }
      rewrite E1, E2.
      destruct (N.eqb_spec c 10) as [->|N1].
      { destruct (IH b ltac:(lia) v (lines ++ [line]) [] r Hb') as (ls & E & Hls). exists ls. split; [exact E|].
        unfold lines_of. rewrite split_lines_lf. apply lines_of_newline. exact Hls. }
      destruct (N.eqb_spec c 13) as [->|N2].
      { destruct b as [|d b].
        - cbn [app quotes3]. cbn [N.eqb]. inversion Hb'; subst.
          destruct (IH [] ltac:(cbn; lia) [] (lines ++ [line]) [] r Hb') as (ls & E & Hls). exists ls. split; [exact E|].
          unfold lines_of. rewrite split_lines_cr by (cbn; auto). apply lines_of_newline. exact Hls.
        - cbn [app]. destruct (N.eqb_spec d 10) as [->|N3].
          + apply bb_char_inv in Hb'; [|lia]. destruct Hb' as (v' & -> & Hb').
            destruct (IH b ltac:(cbn in Hn; lia) v' (lines ++ [line]) [] r Hb') as (ls & E & Hls). exists ls. split; [exact E|].
            unfold lines_of. rewrite split_lines_crlf. apply lines_of_newline. exact Hls.
          + destruct (IH (d :: b) ltac:(lia) v (lines ++ [line]) [] r Hb') as (ls & E & Hls). exists ls. split; [exact E|].
            unfold lines_of. rewrite split_lines_cr; [apply lines_of_newline; exact Hls|].
            inversion Hb'; subst; cbn [first_is]; auto. intros K. discriminate K. }
      destruct (is_indent c) eqn:E3.
      { destruct (IH b ltac:(lia) v lines (line ++ [BSpace c]) r Hb') as (ls & E & Hls). exists ls. split; [exact E|].
        change (c :: v) with ([c] ++ v). rewrite is_indent_white in E3. eapply lines_of_token; [| | |exact Hls]; [exact E3|reflexivity|].
        repeat constructor. unfold line_end. lia. }
      destruct (N.eqb c 34 || N.eqb c 92) eqn:E4.
      { destruct (IH b ltac:(lia) v lines (line ++ [BChars [c]]) r Hb') as (ls & E & Hls). exists ls. split; [exact E|].
        change (c :: v) with ([c] ++ v). eapply lines_of_token; [| | |exact Hls]; [|reflexivity|].
        - cbn. rewrite <- is_indent_white. exact E3.
        - repeat constructor. unfold line_end. lia. }
      assert (Hc : from_source c). { apply orb_false_iff in E4. rewrite !N.eqb_neq in E4. unfold from_source, line_end. tauto. }
      pose proof (tw_all is_block_char b) as Ha. pose proof (dw_stops is_block_char b) as Hs.
      pose proof (tw_dw is_block_char b) as Eb. pose proof (dw_length is_block_char b) as Hd.
      set (l := take_while is_block_char b) in *. set (b' := drop_while is_block_char b) in *.
      assert (S1 : stops is_block_char (b' ++ quotes3 ++ r)). { destruct b' as [|x b']; [reflexivity|exact Hs]. }
      assert (Hl : Forall from_source l). { eapply Forall_impl; [|exact Ha]. intros x. apply is_block_char_iff. }
      rewrite <- Eb in *. rewrite <- app_assoc, (tw_app _ l _ Ha S1), (dw_app _ l _ Ha S1).
      apply bb_run_inv in Hb'; auto. destruct Hb' as (v' & -> & Hb').
      rewrite app_length in Hn.
      destruct (IH b' ltac:(lia) v' lines (line ++ [BChars (c :: l)]) r Hb') as (ls & E & Hls). exists ls. split; [exact E|].
      change (c :: l ++ v') with ((c :: l) ++ v'). eapply lines_of_token; [| | |exact Hls]; [|reflexivity|].
      * cbn. rewrite <- is_indent_white. exact E3.
      * constructor; [apply Hc|]. eapply Forall_impl; [|exact Hl]. intros x Hx. apply Hx.
Qed.

Lemma lex_block_no_fuel : forall n s lines line, length s <= n -> lex_block n s lines line <> BlockFuel.
Proof.
  induction n as [|n IH]; intros s lines line Hn; destruct s as [|c s]; cbn [length] in *; try lia; try discriminate.
  rewrite (lex_block_fuel (S n) (length (c :: s))) by (cbn [length]; lia).
  fold (lblock (c :: s) lines line). rewrite lblock_cons.
  assert (K : forall s lines line, length s <= n -> lblock s lines line <> BlockFuel).
  { intros s0 l0 l1 H. unfold lblock. rewrite (lex_block_fuel _ n) by lia. apply IH. exact H. }
  destruct (strip_prefix quotes3 _) eqn:E1; [discriminate|].
  destruct (strip_prefix escaped3 _) as [r|] eqn:E2.
  { apply strip_prefix_Some in E2. apply (f_equal (@length N)) in E2. cbn in E2. apply K. lia. }
  destruct (N.eqb c 10); [apply K; lia|]. destruct (N.eqb c 13).
  { destruct s as [|d s]; [apply K; cbn; lia|]. cbn [length] in Hn. destruct (N.eqb d 10); apply K; cbn [length]; lia. }
  destruct (is_indent c); [apply K; lia|]. destruct (_ || _); [apply K; lia|].
  pose proof (dw_length is_block_char s). apply K. lia.
Qed.

(** the block string token *)
Theorem lex_block_iff s v r :
  (exists ls, lex_block (length s) s [] [] = BlockLines ls r /\ block_string_value ls = v) <->
  (exists body raw, block_body body raw /\ s = body ++ quotes3 ++ r /\ v = spec_block_value raw).
Proof.
  assert (K : forall raw ls, lines_of [] [] raw ls -> block_string_value ls = spec_block_value raw).
  { intros raw ls (H1 & H2). cbn [map app] in H1. change (line_text []) with (@nil N) in H1. rewrite attach_nil in H1 by apply split_lines_nil.
    rewrite block_value_spec by (apply H2; constructor). rewrite H1. reflexivity. }
  split.
  - intros (ls & E & <-). fold (lblock s [] []) in E. apply (lblock_sound (length s)) in E; auto.
    destruct E as (body & raw & Hb & Es & Hls). exists body, raw. auto.
  - intros (body & raw & Hb & -> & ->). destruct (lblock_complete (length body) body ltac:(auto) raw [] [] r Hb) as (ls & E & Hls).
    exists ls. split; [exact E|auto].
Qed.
