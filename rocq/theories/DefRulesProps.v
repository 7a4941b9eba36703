(** C52. *)
From Verif Require Import Base Ast InputCycles InputCyclesSpec InputCyclesProofs DefRules.

(** [named k key l]: the elements of [l] called [k], in order. [repeated]: there are at least two. *)
Definition named {A} (key : A -> name) (k : name) (l : list A) : list A := filter (fun x => teqb (key x) k) l.
Definition repeated {A} (key : A -> name) (k : name) (l : list A) : bool := Nat.leb 2 (length (named key k l)).

(** C52: an error about an enum value (input field) is reported exactly for an enum (input) type and a name that is defined
    more than once in it, with all these definitions. *)
Theorem repeated_enum_values_reported : forall S k xs,
  In (DRepeatedEnumValue k xs) (definition_errors S) <->
  exists x, In (DEnum x) (s_types S) /\ repeated ev_name k (en_values x) = true /\ xs = named ev_name k (en_values x).
Proof.
  intros S k xs. unfold definition_errors. rewrite !in_app_iff, !in_flat_map. split.
  - intros [(t & Ht & H)|[(t & Ht & H)|H]].
    + destruct t; try destruct H. unfold enum_errors in H. apply in_map_iff in H as ([k' xs'] & E & H).
      cbn in E. injection E as <- <-. apply duplicates_In in H as [-> Hl].
      exists d. repeat split; auto. apply Nat.leb_le. exact Hl.
    + destruct t; try destruct H. apply in_map_iff in H as (? & E & _). discriminate.
    + apply in_map_iff in H as (? & E & _). discriminate.
  - intros (x & Hx & Hr & ->). left. exists (DEnum x). split; auto. unfold enum_errors. apply in_map_iff.
    exists (k, named ev_name k (en_values x)). split; auto. apply duplicates_In. split; auto. apply Nat.leb_le, Hr.
Qed.
Theorem repeated_input_fields_reported : forall S k xs,
  In (DRepeatedInputField k xs) (definition_errors S) <->
  exists x, In (DInput x) (s_types S) /\ repeated iv_name k (io_fields x) = true /\ xs = named iv_name k (io_fields x).
Proof.
  intros S k xs. unfold definition_errors. rewrite !in_app_iff, !in_flat_map. split.
  - intros [(t & Ht & H)|[(t & Ht & H)|H]].
    + destruct t; try destruct H. apply in_map_iff in H as (? & E & _). discriminate.
    + destruct t; try destruct H. unfold input_errors in H. apply in_map_iff in H as ([k' xs'] & E & H).
      cbn in E. injection E as <- <-. apply duplicates_In in H as [-> Hl].
      exists d. repeat split; auto. apply Nat.leb_le. exact Hl.
    + apply in_map_iff in H as (? & E & _). discriminate.
  - intros (x & Hx & Hr & ->). right; left. exists (DInput x). split; auto. unfold input_errors. apply in_map_iff.
    exists (k, named iv_name k (io_fields x)). split; auto. apply duplicates_In. split; auto. apply Nat.leb_le, Hr.
Qed.

(** each once: for a name, there are as many errors as types in which it is repeated *)
Lemma NoDup_filter_key {B} (l : list (name * B)) k : NoDup (map fst l) ->
  length (filter (fun g => teqb (fst g) k) l) = if existsb (fun g => teqb (fst g) k) l then 1 else 0.
Proof.
  induction l as [|g l IH]; cbn; intros H; [reflexivity|]. inversion H as [|? ? Hn Hd]; subst.
  destruct (teqb_spec (fst g) k) as [E|E]; cbn; [|auto].
  rewrite IH by auto. destruct (existsb _ l) eqn:Ee; [|reflexivity]. exfalso. apply Hn.
  apply existsb_exists in Ee as (g' & Hg & Ek). apply teqb_eq in Ek. rewrite E, <- Ek. apply in_map; auto.
Qed.
Lemma NoDup_map_filter {A B} (f : A -> B) (p : A -> bool) l : NoDup (map f l) -> NoDup (map f (filter p l)).
Proof.
  induction l as [|a l IH]; cbn; intros H; [constructor|]. inversion H as [|? ? Hn Hd]; subst.
  destruct (p a); cbn; auto. constructor; auto. intros Hin. apply Hn. apply in_map_iff in Hin as (b & E & Hb).
  apply filter_In in Hb as [Hb _]. apply in_map_iff. eauto.
Qed.
Lemma duplicates_once {A} (key : A -> name) k l :
  length (filter (fun g => teqb (fst g) k) (duplicates key l)) = if repeated key k l then 1 else 0.
Proof.
  rewrite NoDup_filter_key.
  - match goal with |- (if ?a then _ else _) = (if ?b then _ else _) => assert (a = b) as -> end; [|reflexivity].
    apply Bool.eq_iff_eq_true. rewrite existsb_exists. split.
    + intros ([k' xs] & H & E). apply duplicates_In in H as [-> H]. apply teqb_eq in E. cbn in E. subst k'.
      apply Nat.leb_le. exact H.
    + intros H. exists (k, named key k l). split; [|cbn; apply teqb_refl]. apply duplicates_In. split; auto. apply Nat.leb_le, H.
  - unfold duplicates. apply NoDup_map_filter, sorted_NoDup, group_sorted.
Qed.
Lemma filter_flat_map {A B} (p : B -> bool) (f : A -> list B) l :
  filter p (flat_map f l) = flat_map (fun a => filter p (f a)) l.
Proof. induction l as [|a l IH]; cbn; [reflexivity|]. rewrite filter_app, IH. reflexivity. Qed.
Lemma count_flat_map {A B} (p : A -> bool) (f : A -> list B) l : (forall a, length (f a) = if p a then 1 else 0) ->
  length (flat_map f l) = length (filter p l).
Proof.
  intros H. induction l as [|a l IH]; cbn; [reflexivity|]. rewrite app_length, H, IH. destruct (p a); reflexivity.
Qed.
Lemma filter_map_length {A B} (p : B -> bool) (f : A -> B) l :
  length (filter p (map f l)) = length (filter (fun a => p (f a)) l).
Proof. induction l as [|a l IH]; cbn; [reflexivity|]. destruct (p (f a)); cbn; rewrite IH; reflexivity. Qed.
Lemma filter_nothing {A} (p : A -> bool) l : (forall a, In a l -> p a = false) -> filter p l = [].
Proof. induction l as [|a l IH]; cbn; intros H; [reflexivity|]. rewrite (H a) by auto. apply IH. auto. Qed.

Theorem repeated_enum_values_once : forall S k,
  length (filter (fun e => match e with DRepeatedEnumValue n _ => teqb n k | _ => false end) (definition_errors S)) =
  length (filter (fun t => match t with DEnum x => repeated ev_name k (en_values x) | _ => false end) (s_types S)).
Proof.
  intros S k. unfold definition_errors. rewrite !filter_app, !app_length.
  rewrite (filter_nothing _ (map _ (circular_reference_errors S))).
  2: { intros e He. apply in_map_iff in He as (? & <- & _). reflexivity. }
  rewrite (filter_nothing _ (flat_map (fun t => match t with DInput x => input_errors x | _ => [] end) _)).
  2: { intros e He. apply in_flat_map in He as (t & _ & He). destruct t; try destruct He.
       apply in_map_iff in He as (? & <- & _). reflexivity. }
  cbn [length Nat.add]. rewrite Nat.add_0_r, filter_flat_map. apply count_flat_map. intros t.
  destruct t; cbn; auto. unfold enum_errors. rewrite filter_map_length. apply duplicates_once.
Qed.
Theorem repeated_input_fields_once : forall S k,
  length (filter (fun e => match e with DRepeatedInputField n _ => teqb n k | _ => false end) (definition_errors S)) =
  length (filter (fun t => match t with DInput x => repeated iv_name k (io_fields x) | _ => false end) (s_types S)).
Proof.
  intros S k. unfold definition_errors. rewrite !filter_app, !app_length.
  rewrite (filter_nothing _ (map _ (circular_reference_errors S))).
  2: { intros e He. apply in_map_iff in He as (? & <- & _). reflexivity. }
  rewrite (filter_nothing _ (flat_map (fun t => match t with DEnum x => enum_errors x | _ => [] end) _)).
  2: { intros e He. apply in_flat_map in He as (t & _ & He). destruct t; try destruct He.
       apply in_map_iff in He as (? & <- & _). reflexivity. }
  cbn [length Nat.add]. rewrite Nat.add_0_r, filter_flat_map. apply count_flat_map. intros t.
  destruct t; cbn; auto. unfold input_errors. rewrite filter_map_length. apply duplicates_once.
Qed.

(** A schema (with unique type names) passes validation exactly when no enum has two values of one name, no input type has
    two fields of one name, and no input type requires itself. *)
Theorem definition_rules_exact : forall S, NoDup (map td_name (s_types S)) ->
  (definition_errors S = [] <->
   (forall x, In (DEnum x) (s_types S) -> NoDup (map ev_name (en_values x))) /\
   (forall x, In (DInput x) (s_types S) -> NoDup (map iv_name (io_fields x))) /\
   (forall n, ~ requires_itself S n)).
Proof.
  intros S Hn. unfold definition_errors. split.
  - intros H. apply app_eq_nil in H as [H1 H]. apply app_eq_nil in H as [H2 H3]. repeat split.
    + intros x Hx. apply duplicates_nil. destruct (duplicates ev_name (en_values x)) as [|g gs] eqn:E; auto.
      exfalso. assert (Hin : In (DRepeatedEnumValue (fst g) (snd g)) []); [|destruct Hin].
      rewrite <- H1. apply in_flat_map. exists (DEnum x). split; auto. unfold enum_errors. rewrite E. left; auto.
    + intros x Hx. apply duplicates_nil. destruct (duplicates iv_name (io_fields x)) as [|g gs] eqn:E; auto.
      exfalso. assert (Hin : In (DRepeatedInputField (fst g) (snd g)) []); [|destruct Hin].
      rewrite <- H2. apply in_flat_map. exists (DInput x). split; auto. unfold input_errors. rewrite E. left; auto.
    + intros n Hr. apply circular_reference_errors_iff in Hr as (refs & Hr); auto.
      apply map_eq_nil in H3. rewrite H3 in Hr. destruct Hr.
  - intros (H1 & H2 & H3). 
    assert (A1 : flat_map (fun t => match t with DEnum x => enum_errors x | _ => [] end) (s_types S) = []).
    { apply flat_map_nil. intros t Ht. destruct t; auto. unfold enum_errors.
      rewrite (proj2 (duplicates_nil _ _) (H1 _ Ht)). reflexivity. }
    assert (A2 : flat_map (fun t => match t with DInput x => input_errors x | _ => [] end) (s_types S) = []).
    { apply flat_map_nil. intros t Ht. destruct t; auto. unfold input_errors.
      rewrite (proj2 (duplicates_nil _ _) (H2 _ Ht)). reflexivity. }
    rewrite A1, A2. cbn. destruct (circular_reference_errors S) as [|[n refs] l] eqn:E; auto. exfalso.
    apply (H3 n). apply circular_reference_errors_iff; auto. exists refs. rewrite E. left; auto.
Qed.

(** a case with repeated names *)
Local Open Scope string_scope.
Local Open Scope list_scope.
Definition ex_enum : enum_def :=
  {| en_name := tx "E"; en_desc := None; en_dirs := []; en_builtin := false;
     en_values := map (fun s => {| ev_name := tx s; ev_desc := None; ev_dirs := [] |}) ["A"; "B"; "A"; "C"; "B"] |}.
Definition ex_input : input_def :=
  {| io_name := tx "I"; io_desc := None; io_dirs := [];
     io_fields := map (fun s => {| iv_name := tx s; iv_desc := None; iv_type := TBase (tx "Int") false;
                                   iv_default := None; iv_dirs := [] |}) ["x"; "x"; "y"] |}.
Definition ex_defs : schema :=
  {| s_desc := None; s_types := [DEnum ex_enum; DInput ex_input]; s_ddefs := []; s_query := tx "Query";
     s_mutation := None; s_subscription := None; s_dirs := [] |}.
Example ex_defs_errors :
  map (fun e => match e with DRepeatedEnumValue n l => (n, length l) | DRepeatedInputField n l => (n, length l)
                | DCircularInput n _ => (n, 0) end) (definition_errors ex_defs) =
  [(tx "A", 2); (tx "B", 2); (tx "x", 2)] /\
  NoDup (map td_name (s_types ex_defs)).
Proof. split; [vm_compute; reflexivity|]. repeat constructor; cbn; intuition discriminate. Qed.

Print Assumptions repeated_enum_values_reported.
Print Assumptions repeated_input_fields_reported.
Print Assumptions repeated_enum_values_once.
Print Assumptions repeated_input_fields_once.
Print Assumptions definition_rules_exact.
