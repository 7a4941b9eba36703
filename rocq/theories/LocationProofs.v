(** Proofs for C62. *)
From Coq Require Import Sorted.
From Verif Require Import Base Lexer LexerSpec LexerStreamProofs LexerProps Location LocationSpec.

Lemma split_bytes_spec s : forall b l r, split_bytes s b = Some (l, r) <-> s = l ++ r /\ bytes l = b.
Proof.
  induction s as [|c s IH]; intros b l r; cbn [split_bytes].
  - destruct (Nat.eqb_spec b 0) as [->|N]; split.
    + intros [= <- <-]. auto.
    + intros (E & B). symmetry in E. apply app_eq_nil in E. destruct E as (-> & ->). reflexivity.
    + discriminate.
    + intros (E & B). symmetry in E. apply app_eq_nil in E. destruct E as (-> & ->). cbn in B. congruence.
  - destruct (Nat.eqb_spec b 0) as [->|N].
    + split; [intros [= <- <-]; auto|]. intros (E & B). destruct l as [|d l]; [cbn in E; subst; reflexivity|].
      pose proof (bytes_pos (d :: l)) as H. rewrite B in H. assert (d :: l <> []) by discriminate. specialize (H H0). lia.
    + assert (U : forall l', bytes (c :: l') = utf8_len c + bytes l') by (intros; rewrite <- !blen_bytes; reflexivity).
      destruct (Nat.leb_spec (utf8_len c) b) as [L|L].
      * destruct (split_bytes s (b - utf8_len c)) as [[l' r']|] eqn:E.
        -- apply IH in E. destruct E as (-> & E). split.
           ++ intros [= <- <-]. split; [reflexivity|]. rewrite U. lia.
           ++ intros (K & B). destruct l as [|d l]; [cbn in B; congruence|]. cbn in K. injection K as <- K. rewrite U in B.
              assert (X : split_bytes (l' ++ r') (b - utf8_len c) = Some (l, r)) by (apply IH; split; [exact K|lia]).
              assert (Y : split_bytes (l' ++ r') (b - utf8_len c) = Some (l', r')) by (apply IH; split; [reflexivity|lia]).
              rewrite Y in X. injection X as -> ->. reflexivity.
        -- split; [discriminate|]. intros (K & B). destruct l as [|d l]; [cbn in B; congruence|]. cbn in K. injection K as <- K. rewrite U in B.
           enough (split_bytes s (b - utf8_len c) = Some (l, r)) by congruence. apply IH. split; [exact K|lia].
      * split; [discriminate|]. intros (K & B). destruct l as [|d l]; [cbn in B; congruence|]. cbn in K. injection K as <- K. rewrite U in B. lia.
Qed.
Lemma starts_char_inj s b i j : starts_char s b i -> starts_char s b j -> i = j.
Proof.
  intros (p & r & E & B & <-) (p' & r' & E' & B' & <-).
  assert (X : split_bytes s b = Some (p, r)) by (now apply split_bytes_spec).
  assert (Y : split_bytes s b = Some (p', r')) by (now apply split_bytes_spec). congruence.
Qed.
Lemma slice_spec s a i b : starts_char s a i -> a <= b ->
  (forall l, slice s a b = Some l -> starts_char s b (i + length l)) /\
  (forall j, starts_char s b j -> exists l, slice s a b = Some l /\ j = i + length l).
Proof.
  intros (p & r & E & B & <-) L. unfold slice. rewrite (proj2 (Nat.leb_le a b) L).
  assert (X : split_bytes s a = Some (p, r)) by (now apply split_bytes_spec). rewrite X. split.
  - intros l H. destruct (split_bytes r (b - a)) as [[l' r']|] eqn:Y; [|discriminate]. injection H as ->.
    apply split_bytes_spec in Y. destruct Y as (-> & Y). exists (p ++ l), r'. rewrite <- app_assoc. repeat split; auto.
    + rewrite bytes_app. lia.
    + apply app_length.
  - intros j (p' & r' & E' & B' & <-).
    assert (Z : exists l, p' = p ++ l /\ r = l ++ r').
    { clear X. subst s. revert p' B' E'. rewrite <- B in L. clear B. revert b L. induction p as [|c p IH]; intros b L p' B' E'.
      - exists p'. auto.
      - assert (U : forall l', bytes (c :: l') = utf8_len c + bytes l') by (intros; rewrite <- !blen_bytes; reflexivity).
        rewrite U in L. destruct p' as [|c' p'].
        + cbn in B'. subst b. assert (0 < utf8_len c) by (unfold utf8_len; repeat destruct (_ <? _)%N; lia). lia.
        + cbn in E'. injection E' as -> E'. rewrite U in B'. destruct (IH (b - utf8_len c') ltac:(lia) p' ltac:(lia) E') as (l & -> & ->).
          exists l. auto. }
    destruct Z as (l & -> & ->). exists l. rewrite bytes_app in B'.
    assert (Y : split_bytes (l ++ r') (b - a) = Some (l, r')) by (apply split_bytes_spec; split; [reflexivity|lia]).
    rewrite Y, app_length. auto.
Qed.

(** what is documented of [slice::binary_search] *)
Definition searches (search : list nat -> nat -> nat + nat) : Prop := forall l x, StronglySorted lt l ->
  match search l x with
  | inl i => nth_error l i = Some x
  | inr i => i <= length l /\ Forall (fun y => y < x) (firstn i l) /\ Forall (fun y => x < y) (skipn i l)
  end.

Lemma sorted_app_lt (a b : list nat) x : StronglySorted lt (a ++ b) -> Forall (fun y => y < x) a -> Forall (fun y => x < y) b -> StronglySorted lt (a ++ x :: b).
Proof.
  induction a as [|y a IH]; cbn; intros S F G; [now constructor|].
  apply StronglySorted_inv in S. destruct S as (S & H). inversion_clear F. constructor; [now apply IH|].
  apply Forall_app in H. apply Forall_app. split; [apply H|]. constructor; [assumption|]. apply H.
Qed.

Section Convert.
  Variable search : list nat -> nat -> nat + nat.
  Variable doc : text.
  Hypothesis Hs : searches search.
  (** the mapping always holds true pairs, in order, and the pair of zeros *)
  Definition mapping_ok (m : mapping) : Prop :=
    StronglySorted lt (map fst m) /\ Forall (fun bc => starts_char doc (fst bc) (snd bc)) m /\ nth_error m 0 = Some (0, 0).
  Lemma new_mapping_ok : mapping_ok new_mapping.
  Proof. repeat split; cbn; repeat constructor. exists [], doc. auto. Qed.
  Lemma to_char_spec m b : mapping_ok m ->
    (forall i, starts_char doc b i -> exists m', to_char search doc m b = Some (i, m') /\ mapping_ok m') /\
    (forall i m', to_char search doc m b = Some (i, m') -> starts_char doc b i).
  Proof.
    intros (S & F & Z). unfold to_char. specialize (Hs _ b S). destruct (search (map fst m) b) as [k|[|k]].
    - rewrite nth_error_map in Hs. destruct (nth_error m k) as [[b' c]|] eqn:E; [|discriminate Hs]. cbn in Hs. injection Hs as ->.
      pose proof (proj1 (Forall_forall _ _) F _ (nth_error_In _ _ E)) as H. cbn in H. split.
      + intros i Hi. exists m. rewrite (starts_char_inj _ _ _ _ Hi H). now repeat split.
      + intros i m' [= <- <-]. exact H.
    - exfalso. destruct m as [|[b0 c0] m]; [discriminate Z|]. cbn in Z, Hs. injection Z as -> ->. destruct Hs as (_ & _ & G). inversion G. lia.
    - destruct Hs as (L & G1 & G2). rewrite map_length in L. destruct (nth_error m k) as [[b0 c0]|] eqn:E; [|apply nth_error_None in E; lia].
      pose proof (proj1 (Forall_forall _ _) F _ (nth_error_In _ _ E)) as H. cbn in H.
      assert (Lb : b0 < b).
      { apply (proj1 (Forall_forall _ _) G1). rewrite firstn_map. apply in_map_iff. exists (b0, c0). split; [reflexivity|].
        apply nth_error_In with k. rewrite <- E. clear. revert m. induction k as [|k IH]; intros [|x m]; cbn; auto. apply IH. }
      destruct (slice_spec doc b0 c0 b H ltac:(lia)) as (S1 & S2). unfold insert_at. rewrite (proj2 (Nat.leb_le _ _) L). split.
      + intros i Hi. destruct (S2 i Hi) as (l & -> & ->). eexists. split; [reflexivity|]. repeat split.
        * rewrite map_app. cbn [map fst]. rewrite <- (firstn_map fst (Datatypes.S k) m), <- (skipn_map fst (Datatypes.S k) m).
          apply sorted_app_lt; auto. now rewrite firstn_skipn.
        * rewrite <- (firstn_skipn (Datatypes.S k) m) in F. apply Forall_app in F. apply Forall_app. split; [apply F|]. constructor; [exact Hi|apply F].
        * destruct m as [|x m]; [cbn in L; lia|]. cbn. exact Z.
      + intros i m'. destruct (slice doc b0 b) as [l|] eqn:El; [|discriminate]. intros [= <- <-]. now apply S1.
  Qed.
End Convert.
