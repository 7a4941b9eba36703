(** Comparing values. *)
From Coq Require Import Permutation Lia.
From Verif Require Import Base Ast ValueEq ValueEqSpec.

(** ** Floats *)
Section Floats.
  Local Open Scope N_scope.
  Lemma land_mod a n m : m = N.ones n -> N.land a m = a mod 2 ^ n.
  Proof. intros ->. apply N.land_ones. Qed.
  Definition ex (b : N) := (b / 2 ^ 52) mod 2 ^ 11.
  Definition fr (b : N) := b mod 2 ^ 52.
  Definition magnitude (b : N) := if N.eqb (ex b) 0 then fr b else (2 ^ 52 + fr b) * 2 ^ (ex b - 1).
  Lemma is_nan_eq b : f64_is_nan b = N.eqb (ex b) 2047 && negb (N.eqb (fr b) 0).
  Proof.
    unfold f64_is_nan, ex, fr. rewrite N.shiftr_div_pow2. rewrite (land_mod _ 11) by reflexivity. rewrite (land_mod b 52) by reflexivity. reflexivity.
  Qed.
  Lemma parts b : b < 2 ^ 64 -> b = (if N.leb (2 ^ 63) b then 2 ^ 63 else 0) + ex b * 2 ^ 52 + fr b.
  Proof.
    intros H. unfold ex, fr. pose proof (N.div_mod b (2 ^ 52) ltac:(lia)) as D. 
    assert (Hr : b mod 2 ^ 52 < 2 ^ 52) by (apply N.mod_lt; lia). revert D Hr. generalize (b / 2 ^ 52) (b mod 2 ^ 52). intros q r D Hr.
    pose proof (N.div_mod q (2 ^ 11) ltac:(lia)) as D'.
    assert (Hr' : q mod 2 ^ 11 < 2 ^ 11) by (apply N.mod_lt; lia). revert D' Hr'. generalize (q / 2 ^ 11) (q mod 2 ^ 11). intros q' r' D' Hr'. change (2 ^ 52) with 4503599627370496 in *. change (2 ^ 63) with 9223372036854775808. change (2 ^ 11) with 2048 in *. change (2 ^ 64) with 18446744073709551616 in H.
    destruct (N.leb_spec 9223372036854775808 b); [assert (q' = 1) by lia | assert (q' = 0) by lia]; subst; lia.
  Qed.
  Lemma fr_lt b : fr b < 2 ^ 52. Proof. apply N.mod_lt. discriminate. Qed.
  Lemma ex_lt b : ex b < 2 ^ 11. Proof. apply N.mod_lt. discriminate. Qed.
  Lemma same_parts a b : a < 2 ^ 64 -> b < 2 ^ 64 -> N.leb (2 ^ 63) a = N.leb (2 ^ 63) b -> ex a = ex b -> fr a = fr b -> a = b.
  Proof. intros Ha Hb E1 E2 E3. rewrite (parts a Ha), (parts b Hb). now rewrite E1, E2, E3. Qed.
  Lemma zero_parts b : b < 2 ^ 64 -> N.eqb (N.land b 9223372036854775807) 0 = true <-> ex b = 0 /\ fr b = 0.
  Proof.
    intros H. rewrite N.eqb_eq, (land_mod b 63) by reflexivity. pose proof (parts b H) as P. pose proof (fr_lt b). pose proof (ex_lt b).
    change (2 ^ 52) with 4503599627370496 in *. change (2 ^ 63) with 9223372036854775808 in *. change (2 ^ 11) with 2048 in *. change (2 ^ 64) with 18446744073709551616 in H.
    split.
    - intros E. assert (ex b * 4503599627370496 + fr b = 0); [|lia].
      assert (D := N.div_mod b 9223372036854775808 ltac:(lia)). rewrite E in D. destruct (N.leb_spec 9223372036854775808 b).
      + assert (b / 9223372036854775808 = 1) by lia. lia.
      + assert (b / 9223372036854775808 = 0) by lia. lia.
    - intros (E1 & E2). rewrite E1, E2 in P. rewrite P. destruct (N.leb_spec 9223372036854775808 b); reflexivity.
  Qed.
  Lemma magnitude_lt b : magnitude b < 2 ^ 52 * 2 ^ ex b.
  Proof.
    unfold magnitude. pose proof (fr_lt b). destruct (N.eqb_spec (ex b) 0) as [->|E]; [change (2 ^ 0) with 1; lia|].
    replace (ex b) with (N.succ (ex b - 1)) at 2 by lia. rewrite N.pow_succ_r'. assert (0 < 2 ^ (ex b - 1)) by (apply N.neq_0_lt_0, N.pow_nonzero; lia). nia.
  Qed.
  Lemma magnitude_ge b : 1 <= ex b -> 2 ^ 52 * 2 ^ (ex b - 1) <= magnitude b.
  Proof. intros H. unfold magnitude. destruct (N.eqb_spec (ex b) 0); [lia|]. apply N.mul_le_mono_r. lia. Qed.
  Lemma magnitude_order a b : ex a < ex b -> magnitude a < magnitude b.
  Proof.
    intros H. eapply N.lt_le_trans; [apply magnitude_lt|]. eapply N.le_trans; [|apply magnitude_ge; lia]. apply N.mul_le_mono_l. apply N.pow_le_mono_r; lia.
  Qed.
  Lemma magnitude_inj a b : magnitude a = magnitude b -> ex a = ex b /\ fr a = fr b.
  Proof.
    intros E. assert (X : ex a = ex b).
    { destruct (N.lt_trichotomy (ex a) (ex b)) as [H|[H|H]]; [|exact H|]; apply magnitude_order in H; lia. }
    split; [exact X|]. unfold magnitude in E. rewrite X in E. destruct (N.eqb (ex b) 0); [exact E|].
    apply N.mul_cancel_r in E; [lia|]. apply N.pow_nonzero. lia.
  Qed.
  Lemma magnitude_zero b : magnitude b = 0 <-> ex b = 0 /\ fr b = 0.
  Proof.
    split.
    - unfold magnitude. destruct (N.eqb_spec (ex b) 0) as [E|E]; [auto|]. intros H. apply N.eq_mul_0 in H. destruct H as [H|H]; [lia|]. exfalso. revert H. apply N.pow_nonzero. lia.
    - intros (E1 & E2). unfold magnitude. rewrite E1, E2. reflexivity.
  Qed.
  Lemma number_eq b : f64_number b = if N.eqb (ex b) 2047 then (if N.eqb (fr b) 0 then Infinite (N.leb (2 ^ 63) b) else NaN)
    else Finite (if N.leb (2 ^ 63) b then - Z.of_N (magnitude b) else Z.of_N (magnitude b))%Z.
  Proof. reflexivity. Qed.
  Lemma is_nan_number b : f64_is_nan b = true <-> f64_number b = NaN.
  Proof. rewrite is_nan_eq, number_eq. destruct (N.eqb (ex b) 2047), (N.eqb (fr b) 0); cbn; split; congruence. Qed.
  Lemma f64_eqb_number a b : f64 a -> f64 b -> f64_eqb a b = true <-> f64_number a <> NaN /\ f64_number a = f64_number b.
  Proof.
    intros Ha Hb. unfold f64_eqb. rewrite !Bool.andb_true_iff, !Bool.negb_true_iff, Bool.orb_true_iff, Bool.andb_true_iff, (zero_parts a Ha), (zero_parts b Hb), N.eqb_eq.
    assert (NN : forall x, f64_is_nan x = false <-> f64_number x <> NaN) by (intros x; rewrite <- is_nan_number; destruct (f64_is_nan x); split; congruence).
    rewrite !NN. split.
    - intros ((H1 & H2) & [->|((E1 & E2) & (E3 & E4))]); split; auto. rewrite !number_eq, E1, E3. cbn [N.eqb].
      rewrite (proj2 (magnitude_zero a)), (proj2 (magnitude_zero b)) by auto. now destruct (N.leb (2 ^ 63) a), (N.leb (2 ^ 63) b).
    - intros (H & E). split; [split; congruence|]. rewrite !number_eq in E.
      destruct (N.eqb_spec (ex a) 2047) as [Xa|Xa], (N.eqb_spec (ex b) 2047) as [Xb|Xb].
      + destruct (N.eqb_spec (fr a) 0) as [Ya|Ya], (N.eqb_spec (fr b) 0) as [Yb|Yb]; try discriminate.
        * injection E as E. left. apply same_parts; auto; congruence.
        * rewrite number_eq, Xa in H. cbn [N.eqb Pos.eqb] in H. destruct (N.eqb_spec (fr a) 0); congruence.
      + destruct (N.eqb (fr a) 0); discriminate.
      + destruct (N.eqb (fr b) 0); discriminate.
      + destruct (N.leb (2 ^ 63) a) eqn:La, (N.leb (2 ^ 63) b) eqn:Lb; injection E as E.
        * assert (M : magnitude a = magnitude b) by lia. apply magnitude_inj in M. left. apply same_parts; auto; try congruence; tauto.
        * right. split; apply magnitude_zero; lia.
        * right. split; apply magnitude_zero; lia.
        * assert (M : magnitude a = magnitude b) by lia. apply magnitude_inj in M. left. apply same_parts; auto; try congruence; tauto.
  Qed.
End Floats.

(** ** Maps *)
Lemma kept_keys {A} (l : list (text * A)) k : In k (map fst (kept l)) <-> In k (map fst l).
Proof.
  induction l as [|[x a] l IH]; [reflexivity|]. cbn [kept map fst]. destruct (tmem x (map fst l)) eqn:E; cbn [map fst In]; rewrite IH; [|reflexivity].
  apply tmem_In in E. split; [auto|]. intros [<-|H]; auto.
Qed.
Lemma kept_NoDup {A} (l : list (text * A)) : NoDup (map fst (kept l)).
Proof.
  induction l as [|[x a] l IH]; [constructor|]. cbn [kept]. destruct (tmem x (map fst l)) eqn:E; [exact IH|]. cbn [map fst]. constructor; [|exact IH]. rewrite kept_keys. now apply tmem_false.
Qed.
Lemma kept_entry {A} (l : list (text * A)) k a : In (k, a) (kept l) <-> assoc_last k l = Some a.
Proof.
  induction l as [|[x b] l IH]; [cbn; split; [tauto|discriminate]|]. cbn [kept assoc_last]. destruct (tmem x (map fst l)) eqn:E.
  - rewrite IH. destruct (assoc_last k l) eqn:Q; [reflexivity|]. destruct (teqb k x) eqn:T; [|reflexivity]. apply teqb_eq in T. subst x. apply tmem_In in E. now apply assoc_last_None in Q.
  - apply tmem_false in E. cbn [In]. rewrite IH. destruct (teqb k x) eqn:T.
    + apply teqb_eq in T. subst x. rewrite (proj2 (assoc_last_None k l)) by exact E. split; [intros [H|H]; congruence | intros [= ->]; auto].
    + apply teqb_neq in T. destruct (assoc_last k l) eqn:Q; split; auto; intros [H|H]; congruence.
Qed.
Lemma kept_id {A} (l : list (text * A)) : NoDup (map fst l) -> kept l = l.
Proof.
  induction l as [|[x a] l IH]; [reflexivity|]. cbn [kept map fst]. intros N. inversion_clear N as [|? ? NI N']. rewrite IH by exact N'. now rewrite (proj2 (tmem_false x (map fst l))) by exact NI.
Qed.
Lemma tmem_congr k l l' : (In k l <-> In k l') -> tmem k l = tmem k l'.
Proof. intros H. destruct (tmem k l) eqn:E, (tmem k l') eqn:E'; auto; exfalso; [apply tmem_In in E; apply tmem_false in E' | apply tmem_false in E; apply tmem_In in E']; tauto. Qed.

Lemma assoc_NoDup' {A} k (l : list (text * A)) a : In (k, a) l -> NoDup (map fst l) -> assoc_last k l = Some a.
Proof. intros I N. rewrite <- (kept_id l N) in I. now apply kept_entry in I. Qed.
Definition entries_found (o o' : list (name * value)) : bool := forallb (fun p => match assoc_last (fst p) o' with Some y => value_eqb (snd p) y | None => false end) (kept o).
Lemma obj_eqb o o' : value_eqb (VObj o) (VObj o') = Nat.eqb (length (kept o)) (length (kept o')) && entries_found o o'.
Proof.
  cbn [value_eqb]. f_equal. unfold entries_found. generalize o'. induction o as [|[k x] o IH]; intros o''; [reflexivity|]. cbn [kept]. rewrite IH. destruct (tmem k (map fst o)); reflexivity.
Qed.
Lemma arguments_eqb a b : arguments_equivalent a b = value_eqb (VObj a) (VObj b).
Proof. now rewrite obj_eqb. Qed.
Fixpoint list_eqb (a b : list value) : bool := match a, b with [], [] => true | x :: a', y :: b' => value_eqb x y && list_eqb a' b' | _, _ => false end.
Lemma vlist_eqb a b : value_eqb (VList a) (VList b) = list_eqb a b.
Proof. reflexivity. Qed.

Lemma ef_entry P o k v : every_float P (VObj o) -> entry o k v -> every_float P v.
Proof. intros H E. inversion_clear H as [| | | | | | | |? F]. apply assoc_last_In in E. rewrite Forall_forall in F. exact (F _ E). Qed.
Lemma entries_same_keys (o o' : list (name * value)) : length (kept o) = length (kept o') -> (forall k, In k (map fst o) -> In k (map fst o')) -> forall k, In k (map fst o') -> In k (map fst o).
Proof.
  intros L H k I. rewrite <- kept_keys in *. revert k I. apply (NoDup_length_incl (kept_NoDup o)); [rewrite !map_length; lia|]. intros k I. apply kept_keys. apply H. now apply kept_keys.
Qed.
Lemma entry_key o k : In k (map fst o) <-> exists v, entry o k v.
Proof.
  unfold entry. destruct (assoc_last k o) as [v|] eqn:E.
  - split; [eauto|]. intros _. apply assoc_last_In in E. exact (in_map fst _ _ E).
  - apply assoc_last_None in E. split; [tauto|]. intros (v & H). discriminate.
Qed.
Lemma value_eqb_same v w : f64s v -> f64s w -> value_eqb v w = true <-> same_value v w.
Proof.
  revert w. induction v as [n|z|b|s|b| |n|l IH|o IH] using value_ind'; intros w Hv Hw.
  - destruct w; cbn; try (split; [discriminate|intros H; inversion H]). rewrite teqb_eq. split; [intros ->; constructor | intros H; now inversion H].
  - destruct w; cbn; try (split; [discriminate|intros H; inversion H]). rewrite Z.eqb_eq. split; [intros ->; constructor | intros H; now inversion H].
  - destruct w; cbn; try (split; [discriminate|intros H; inversion H]). inversion_clear Hv. inversion_clear Hw. rewrite f64_eqb_number by assumption. split; [intros (?&?); now constructor | intros H1; now inversion H1].
  - destruct w; cbn; try (split; [discriminate|intros H; inversion H]). rewrite teqb_eq. split; [intros ->; constructor | intros H; now inversion H].
  - destruct w; cbn; try (split; [discriminate|intros H; inversion H]). rewrite Bool.eqb_true_iff. split; [intros ->; constructor | intros H; now inversion H].
  - destruct w; cbn; try (split; [discriminate|intros H; inversion H]). split; [constructor | auto].
  - destruct w; cbn; try (split; [discriminate|intros H; inversion H]). rewrite teqb_eq. split; [intros ->; constructor | intros H; now inversion H].
  - destruct w; try (split; [discriminate|intros H; inversion H]). rewrite vlist_eqb. inversion_clear Hv as [| | | | | | |? Fv|]. inversion_clear Hw as [| | | | | | |? Fw|].
    transitivity (Forall2 same_value l vs); [|split; [now constructor | intros H; now inversion H]].
    revert vs Fw. induction IH as [|x l IHx _ IHl]; intros [|y ys] Fw; cbn [list_eqb]; [split; constructor | split; [discriminate | intros H; inversion H].. |].
    inversion_clear Fv. inversion_clear Fw. rewrite Bool.andb_true_iff, IHx, IHl by assumption. split; [intros (?&?); now constructor | intros H'; now inversion H'].
  - destruct w; try (split; [discriminate|intros H; inversion H]). rewrite obj_eqb, Bool.andb_true_iff, Nat.eqb_eq.
    assert (IE : forall k v v', entry o k v -> entry es k v' -> value_eqb v v' = true <-> same_value v v').
    { intros k v v' E E'. rewrite Forall_forall in IH. apply (IH (k, v)); [now apply assoc_last_In | exact (ef_entry _ _ _ _ Hv E) | exact (ef_entry _ _ _ _ Hw E')]. }
    assert (EF : entries_found o es = true <-> forall k v, entry o k v -> exists v', entry es k v' /\ same_value v v').
    { unfold entries_found. rewrite forallb_forall. split.
      - intros H k v E. pose proof (H (k, v) (proj2 (kept_entry o k v) E)) as Q. cbn [fst snd] in Q. destruct (assoc_last k es) as [v'|] eqn:E'; [|discriminate]. exists v'. split; [exact E'|]. now apply (IE k v v').
      - intros H [k v] I. apply kept_entry in I. destruct (H k v I) as (v' & E' & S). cbn [fst snd]. unfold entry in E'. rewrite E'. now apply (IE k v v'). }
    rewrite EF. split.
    + intros (L & H). constructor; [exact H|]. intros k v' E'. apply entry_key. apply (entries_same_keys o es L); [|apply entry_key; eauto].
      intros k' I. apply entry_key in I. destruct I as (v & E). destruct (H k' v E) as (u & E'' & _). apply entry_key. eauto.
    + intros H. inversion H as [| | | | | | | |? ? H1 H2]; subst. split; [|exact H1].
      assert (K : forall k, In k (map fst (kept o)) <-> In k (map fst (kept es))).
      { intros k. rewrite !kept_keys, !entry_key. split; [intros (v & E); destruct (H1 k v E) as (v' & E' & _); eauto | intros (v & E); eauto]. }
      pose proof (NoDup_incl_length (kept_NoDup o) (fun k => proj1 (K k))) as L1. pose proof (NoDup_incl_length (kept_NoDup es) (fun k => proj2 (K k))) as L2. rewrite !map_length in *. lia.
Qed.

(** ** An equivalence *)
Lemma same_refl v : no_nan v -> same_value v v.
Proof.
  induction v as [n|z|b|s|b| |n|l IH|o IH] using value_ind'; intros H; try constructor; inversion_clear H; auto.
  - clear - IH H0. induction IH; [constructor|]. inversion_clear H0. constructor; auto.
  - intros k v E. exists v. split; [exact E|]. apply assoc_last_In in E. rewrite Forall_forall in *. exact (IH _ E (H0 _ E)).
  - eauto.
Qed.
Lemma same_sym v w : same_value v w -> same_value w v.
Proof.
  revert w. induction v as [n|z|b|s|b| |n|l IH|o IH] using value_ind'; intros w H; inversion H as [| |? ? H1 H2| | | | |? ? F|? ? H1 H2]; subst; try constructor; auto; try congruence.
  - clear H. induction F; constructor; inversion_clear IH; auto.
  - intros k v' E'. destruct (H2 k v' E') as (v & E). destruct (H1 k v E) as (v'' & E'' & S). unfold entry in *. assert (v'' = v') by congruence. subst v''. exists v. split; [exact E|].
    rewrite Forall_forall in IH. apply (IH (k, v)); [now apply assoc_last_In | exact S].
  - intros k v E. destruct (H1 k v E) as (v' & E' & _). eauto.
Qed.
Lemma same_trans v w u : same_value v w -> same_value w u -> same_value v u.
Proof.
  revert w u. induction v as [n|z|b|s|b| |n|l IH|o IH] using value_ind'; intros w u H H'; inversion H as [| |? ? H1 H2| | | | |? ? F|? ? H1 H2]; subst; inversion H' as [| |? ? H3 H4| | | | |? ? F'|? ? H3 H4]; subst; try constructor; auto; try congruence.
  - clear H H'. revert l'0 F'. induction F; intros l2 F'; inversion_clear F'; constructor; inversion_clear IH; eauto.
  - intros k v E. destruct (H1 k v E) as (v' & E' & S). destruct (H3 k v' E') as (v'' & E'' & S'). exists v''. split; [exact E''|]. rewrite Forall_forall in IH. apply (IH (k, v) (assoc_last_In _ _ _ E) v'); auto.
  - intros k v E. destruct (H4 k v E) as (v' & E'). eauto.
Qed.
Lemma same_no_nan v w : keys_once v -> same_value v w -> no_nan v.
Proof.
  revert w. induction v as [n|z|b|s|b| |n|l IH|o IH] using value_ind'; intros w K H; inversion H as [| |? ? H1 H2| | | | |? ? F|? ? H1 H2]; subst; constructor; auto.
  - inversion_clear K as [| | | | | | |? K'|]. clear H. induction F; constructor; inversion_clear IH; inversion_clear K'; unfold no_nan in *; eauto.
  - inversion_clear K as [| | | | | | | |? ND K']. rewrite Forall_forall in *. intros [k v] I. assert (E : entry o k v) by (apply kept_entry; now rewrite kept_id).
    destruct (H1 k v E) as (v' & _ & S). exact (IH _ I v' (K' _ I) S).
Qed.

(** ** Rearranging *)
Lemma same_rearranged v w : keys_once v -> keys_once w -> same_value v w -> rearranged v w.
Proof.
  revert w. induction v as [n|z|b|s|b| |n|l IH|o IH] using value_ind'; intros w Kv Kw H; inversion H as [| |? ? H1 H2| | | | |? ? F|? ? H1 H2]; subst; try now constructor.
  - constructor. inversion_clear Kv as [| | | | | | |? K1|]. inversion_clear Kw as [| | | | | | |? K2|]. clear H. induction F; constructor; inversion_clear IH; inversion_clear K1; inversion_clear K2; auto.
  - inversion_clear Kv as [| | | | | | | |? N1 K1]. inversion_clear Kw as [| | | | | | | |? N2 K2]. clear H.
    assert (HM : forall k v, In (k, v) o -> exists v', In (k, v') o' /\ same_value v v').
    { intros k v I. destruct (H1 k v) as (v' & E & S); [apply kept_entry; now rewrite kept_id|]. exists v'. split; [now apply assoc_last_In | exact S]. }
    assert (HK : forall k, In k (map fst o') -> In k (map fst o)).
    { intros k I. apply entry_key in I. destruct I as (v' & E). apply entry_key. eauto. }
    assert (G : exists p, Forall2 (fun a b => fst a = fst b /\ rearranged (snd a) (snd b)) o p /\ incl p o').
    { clear H1 H2 N1 HK. induction o as [|[k v] o IHo]; [exists []; split; [constructor | intros x []]|].
      inversion_clear IH as [|? ? IHv IH']. inversion_clear K1 as [|? ? Kv K1']. destruct IHo as (p & F & I); auto. { intros k' v' J. apply HM. now right. }
      destruct (HM k v (or_introl eq_refl)) as (v' & J & S). exists ((k, v') :: p). split.
      - constructor; [|exact F]. split; [reflexivity|]. cbn [fst snd]. apply IHv; auto. rewrite Forall_forall in K2. exact (K2 _ J).
      - intros x [<-|Ix]; auto. }
    destruct G as (p & F & I). apply (re_obj o p o' F).
    assert (Ep : map fst p = map fst o) by (clear - F; induction F as [|a b l l' (E & _) F IH]; cbn; [reflexivity | now rewrite E, IH]).
    assert (Np : NoDup p) by (apply (NoDup_map_inv fst); now rewrite Ep). apply NoDup_Permutation; [exact Np | now apply (NoDup_map_inv fst)|].
    intros [k v']. split; [apply I|]. intros J. assert (In k (map fst p)) by (rewrite Ep; apply HK; exact (in_map fst _ _ J)). apply in_map_iff in H. destruct H as ((k' & u) & E & Iu). cbn in E. subst k'.
    assert (u = v'); [|now subst]. apply I in Iu. apply assoc_NoDup' in Iu; [|exact N2]. apply assoc_NoDup' in J; [|exact N2]. congruence.
Qed.
Lemma rearranged_same v w : keys_once v -> keys_once w -> rearranged v w -> no_nan v -> same_value v w.
Proof.
  revert w. induction v as [n|z|b|s|b| |n|l IH|o IH] using value_ind'; intros w Kv Kw H N; inversion H as [| |? ? H1| | | | |? ? F|? p ? F P]; subst; try now constructor.
  - inversion_clear N. now constructor.
  - constructor. inversion_clear Kv as [| | | | | | |? K1|]. inversion_clear Kw as [| | | | | | |? K2|]. inversion_clear N as [| | | | | | |? N1|]. clear H.
    induction F; constructor; inversion_clear IH; inversion_clear K1; inversion_clear K2; inversion_clear N1; auto.
  - inversion_clear Kv as [| | | | | | | |? N1 K1]. inversion_clear Kw as [| | | | | | | |? N2 K2]. inversion_clear N as [| | | | | | | |? N3]. clear H.
    assert (K2' : Forall (fun q => keys_once (snd q)) p) by (now rewrite P). rewrite Forall_forall in IH, K1, N3, K2'.
    assert (F1 : forall x, In x o -> exists y, In y p /\ fst x = fst y /\ rearranged (snd x) (snd y)).
    { clear - F. induction F as [|x y l l' R F IH]; [intros x []|]. intros z [<-|I]; [exists y; split; [now left | exact R]|]. destruct (IH z I) as (u & J & K). exists u. split; [now right | exact K]. }
    assert (F2 : forall y, In y p -> exists x, In x o /\ fst x = fst y).
    { clear - F. induction F as [|x y l l' R F IH]; [intros x []|]. intros z [<-|I]; [exists x; split; [now left | apply R]|]. destruct (IH z I) as (u & J & K). exists u. split; [now right | exact K]. }
    constructor.
    + intros k v E. apply assoc_last_In in E. destruct (F1 _ E) as ((k' & v') & I & E1 & R). cbn in E1. subst k'. exists v'. split; [apply assoc_NoDup'; [now apply (Permutation_in _ P) | exact N2]|].
      exact (IH _ E v' (K1 _ E) (K2' _ I) R (N3 _ E)).
    + intros k v' E. apply assoc_last_In in E. apply (Permutation_in _ (Permutation_sym P)) in E. destruct (F2 _ E) as ((k' & v) & I & E1). cbn in E1. subst k'. exists v. now apply assoc_NoDup'.
Qed.
