(** Proofs about the paths and messages of schema changes. *)
From Coq Require Import String Lia.
From Verif Require Import Base Ast Maps LexerSpec ValueEq ValueEqSpec ValueEqProofs ValueEqProps Printer DefParser Compare CompareSpec CompareProofs ChangeText ChangeTextSpec.
Local Open Scope string_scope.
Local Open Scope list_scope.

(** the parts of a text between full stops *)
Fixpoint words (p : text) : list text :=
  match p with
  | [] => [[]]
  | c :: p' => if N.eqb c 46 then [] :: words p' else match words p' with w :: ws => (c :: w) :: ws | [] => [[c]] end
  end.
Definition without (c : N) (n : text) : Prop := Forall (fun x => x <> c) n.
Lemma words_one n : without 46 n -> words n = [n].
Proof. induction 1 as [|c n H _ IH]; [reflexivity|]. cbn. apply N.eqb_neq in H. now rewrite H, IH. Qed.
Lemma words_dot n p : without 46 n -> words (n ++ tx "." ++ p) = n :: words p.
Proof. induction 1 as [|c n H _ IH]; [reflexivity|]. cbn in *. apply N.eqb_neq in H. now rewrite H, IH. Qed.
Lemma name_without c n : is_name n -> ~ name_continue c -> without c n.
Proof.
  destruct n as [|x n]; [intros []|]. intros (H & F) NC. constructor; [intros ->; apply NC; now left|].
  eapply Forall_impl; [|exact F]. intros y Hy ->. auto.
Qed.
Lemma name_dot n : is_name n -> without 46 n.
Proof. intros H. apply name_without; auto. unfold name_continue, name_start, digit. lia. Qed.
Lemma name_at n : is_name n -> without 64 n.
Proof. intros H. apply name_without; auto. unfold name_continue, name_start, digit. lia. Qed.
Lemma name_tick n : is_name n -> without 96 n.
Proof. intros H. apply name_without; auto. unfold name_continue, name_start, digit. lia. Qed.
Lemma tick_split x y r s : without 96 x -> without 96 y -> x ++ 96%N :: r = y ++ 96%N :: s -> x = y /\ r = s.
Proof.
  intros Hx. revert y. induction Hx as [|c x Hc _ IH]; intros y Hy E; destruct Hy as [|c' y Hc' Hy]; cbn in E.
  - split; congruence.
  - injection E as E _. congruence.
  - injection E as E _. congruence.
  - injection E as -> E. apply IH in E as (-> & ->); auto.
Qed.

Definition key (x : item) : list text :=
  match x with
  | IType t => [td_name t] | IField t f => [td_name t; fd_name f] | IArgument t f a => [td_name t; fd_name f; iv_name a]
  | IEnumValue d v => [en_name d; ev_name v] | IInputField d f => [io_name d; iv_name f]
  | IDirective d => [64%N :: dd_name d] | IDirectiveArgument d a => [64%N :: dd_name d; iv_name a]
  end.
Lemma unique_named {A} (nm : A -> name) l x y : NoDup (map nm l) -> In x l -> In y l -> nm x = nm y -> x = y.
Proof.
  induction l as [|z l IH]; [contradiction|]. cbn. intros ND Hx Hy E. inversion_clear ND as [|? ? Hz ND'].
  destruct Hx as [->|Hx], Hy as [->|Hy]; auto; exfalso; apply Hz; [rewrite E|rewrite <- E]; now apply in_map.
Qed.

Section Schema.
  Variable s : schema.
  Hypothesis G : graphql_names s.
  Lemma has_field_in t f : has_field s t f -> In t (s_types s) /\ exists l, fields_in s l /\ In f l.
  Proof using Type. intros [d f' H I|d f' H I]; split; auto; eexists; split; try exact I; now constructor. Qed.
  (** the parts of an item's path *)
  Definition in_schema (x : item) : Prop :=
    match x with
    | IType t => In t (s_types s) | IField t f => has_field s t f | IArgument t f a => has_field s t f /\ In a (fd_args f)
    | IEnumValue d v => In (DEnum d) (s_types s) /\ In v (en_values d) | IInputField d f => In (DInput d) (s_types s) /\ In f (io_fields d)
    | IDirective d => In d (s_ddefs s) | IDirectiveArgument d a => In d (s_ddefs s) /\ In a (dd_args d)
    end.
  Lemma key_words p x : leads s p x -> words p = key x /\ in_schema x.
  Proof using G.
    intros [t H|t f H|t f a H I|d v H I|d f H I|d H|d a H I]; cbn [key in_schema].
    - split; auto. apply words_one, name_dot. now apply (gn_types s G).
    - split; auto. apply has_field_in in H as (H & l & F & I).
      rewrite words_dot by (apply name_dot; now apply (gn_types s G)). f_equal. apply words_one, name_dot. eauto using (gn_fields s G).
    - split; auto. apply has_field_in in H as (H & l & F & J).
      rewrite words_dot by (apply name_dot; now apply (gn_types s G)). f_equal.
      rewrite words_dot by (apply name_dot; eauto using (gn_fields s G)). f_equal.
      apply words_one, name_dot. eapply (gn_inputs s G); [eapply ii_field; eauto|exact I].
    - split; auto. rewrite words_dot by (apply name_dot; now apply (gn_types s G (DEnum d))). f_equal.
      apply words_one, name_dot. eauto using (gn_enum_values s G).
    - split; auto. rewrite words_dot by (apply name_dot; now apply (gn_types s G (DInput d))). f_equal.
      apply words_one, name_dot. eapply (gn_inputs s G); [eapply ii_object; eauto|exact I].
    - split; auto. apply words_one. constructor; [discriminate|]. apply name_dot. now apply (gn_ddefs s G).
    - split; auto. change (tx "@" ++ dd_name d ++ tx "." ++ iv_name a) with ((64%N :: dd_name d) ++ tx "." ++ iv_name a).
      rewrite words_dot by (constructor; [discriminate|]; apply name_dot; now apply (gn_ddefs s G)). f_equal.
      apply words_one, name_dot. eapply (gn_inputs s G); [eapply ii_directive; eauto|exact I].
  Qed.
  Lemma not_at t n : In t (s_types s) -> td_name t <> 64%N :: n.
  Proof using G. intros H E. apply (gn_types s G), name_at in H. rewrite E in H. inversion H. congruence. Qed.

  Hypothesis U : names_once s.
  Lemma type_unique t u : In t (s_types s) -> In u (s_types s) -> td_name t = td_name u -> t = u.
  Proof using U. apply unique_named, (once_types s U). Qed.
  Lemma ddef_unique t u : In t (s_ddefs s) -> In u (s_ddefs s) -> dd_name t = dd_name u -> t = u.
  Proof using U. apply unique_named, (once_ddefs s U). Qed.
  Lemma field_unique t u f g : has_field s t f -> has_field s u g -> td_name t = td_name u -> fd_name f = fd_name g -> t = u /\ f = g.
  Proof using U.
    intros H K E F. assert (t = u) as <- by (apply type_unique; auto; [now apply has_field_in in H|now apply has_field_in in K]). split; auto.
    destruct H as [d f H I|d f H I]; inversion K; subst; eapply (unique_named fd_name); eauto; apply (once_fields s U); now constructor.
  Qed.
  Lemma arg_unique t f a b : has_field s t f -> In a (fd_args f) -> In b (fd_args f) -> iv_name a = iv_name b -> a = b.
  Proof using U.
    intros H. apply unique_named, (once_inputs s U). apply has_field_in in H as (_ & l & F & I). now apply (ii_field s l f).
  Qed.
  Lemma key_inj x y : in_schema x -> in_schema y -> key x = key y -> x = y.
  Proof using U G.
    destruct x as [t|t f|t f a|d v|d f|d|d a], y as [t'|t' f'|t' f' a'|d' v'|d' f'|d'|d' a']; cbn [key in_schema]; intros H K E; try discriminate E;
      injection E; intros.
    all: try (exfalso; first [eapply (not_at t); [|eassumption]; assumption|eapply (not_at t'); [|symmetry; eassumption]; assumption
      |eapply (not_at t); [apply has_field_in in H; apply H|eassumption]|eapply (not_at t'); [apply has_field_in in K; apply K|symmetry; eassumption]
      |eapply (not_at (DEnum d)); [apply H|eassumption]|eapply (not_at (DEnum d')); [apply K|symmetry; eassumption]
      |eapply (not_at (DInput d)); [apply H|eassumption]|eapply (not_at (DInput d')); [apply K|symmetry; eassumption]]).
    - f_equal. now apply type_unique.
    - destruct (field_unique t t' f f') as (<- & <-); auto.
    - exfalso. destruct K as (K & _). assert (t = DEnum d') as -> by (apply type_unique; auto; now apply has_field_in in H). inversion H.
    - exfalso. destruct K as (K & _). assert (t = DInput d') as -> by (apply type_unique; auto; now apply has_field_in in H). inversion H.
    - destruct H as (H & I), K as (K & J). destruct (field_unique t t' f f') as (<- & <-); auto. f_equal. eapply arg_unique; eauto.
    - exfalso. destruct H as (H & _). assert (t' = DEnum d) as -> by (apply type_unique; auto; now apply has_field_in in K). inversion K.
    - destruct H as (H & I), K as (K & J). assert (X : DEnum d = DEnum d') by (apply type_unique; auto). injection X as <-. f_equal.
      eapply (unique_named ev_name); eauto. now apply (once_enum_values s U).
    - exfalso. destruct H as (H & _), K as (K & _). assert (X : DEnum d = DInput d') by (apply type_unique; auto). discriminate X.
    - exfalso. destruct H as (H & _). assert (t' = DInput d) as -> by (apply type_unique; auto; now apply has_field_in in K). inversion K.
    - exfalso. destruct H as (H & _), K as (K & _). assert (X : DInput d = DEnum d') by (apply type_unique; auto). discriminate X.
    - destruct H as (H & I), K as (K & J). assert (X : DInput d = DInput d') by (apply type_unique; auto). injection X as <-. f_equal.
      eapply (unique_named iv_name); eauto. apply (once_inputs s U). now apply ii_object.
    - f_equal. now apply ddef_unique.
    - destruct H as (H & I), K as (K & J). assert (d = d') as <- by (apply ddef_unique; auto). f_equal.
      eapply (unique_named iv_name); eauto. apply (once_inputs s U). now apply ii_directive.
  Qed.
  Lemma leads_functional p x y : leads s p x -> leads s p y -> x = y.
  Proof using U G. intros H K. apply key_words in H as (E & H), K as (F & K). apply key_inj; auto. congruence. Qed.
End Schema.

Lemma path2 a b : dotted [a; b] = a ++ tx "." ++ b. Proof. reflexivity. Qed.
Lemma path3 a b c : dotted [a; b; c] = a ++ tx "." ++ b ++ tx "." ++ c.
Proof. cbn. now rewrite <- app_assoc. Qed.

Section Pair.
  Variables old new : schema.
  Hypothesis Go : graphql_names old.
  Hypothesis Gn : graphql_names new.
  Hypothesis Uo : names_once old.
  Hypothesis Un : names_once new.

  Definition fielded (u : tdef) : Prop := (exists d, u = DObject d) \/ (exists d, u = DInterface d).
  Lemma common_fields_types n l l' : common_fields old new n l l' ->
    exists t u, td_name t = n /\ td_name u = n /\ (In t (s_types old) /\ fielded t) /\ (In u (s_types new) /\ fielded u) /\
      (forall f, has_field old t f <-> In f l) /\ (forall f, has_field new u f <-> In f l').
  Proof using Type.
    unfold fielded. intros [a b (Ha & Hb & E)|a b (Ha & Hb & E)]; [exists (DObject a), (DObject b)|exists (DInterface a), (DInterface b)]; cbn in *;
      (split; [reflexivity|]); (split; [congruence|]); (split; [eauto|]); (split; [eauto|]); (split; (intros f; split; intros I; [now inversion I|first [now apply hf_object|now apply hf_interface]])).
  Qed.
  Lemma common_field_types n f g : common_field old new n f g ->
    exists t u, td_name t = n /\ td_name u = n /\ has_field old t f /\ has_field new u g /\ fd_name f = fd_name g.
  Proof using Type.
    intros [l l' H (I & J & E)]. apply common_fields_types in H as (t & u & <- & E' & _ & _ & H & K). apply H in I. apply K in J. exists t, u. auto 6.
  Qed.
End Pair.

(** the item of a change to what is in both schemas *)
Lemma keys_agree s s' p x y : graphql_names s -> graphql_names s' -> leads s p x -> leads s' p y -> key x = key y /\ in_schema s x /\ in_schema s' y.
Proof. intros G G' H K. apply key_words in H as (E & H), K as (F & K); auto. repeat split; auto. congruence. Qed.

(** an item of the first schema is missing in the second, which has what it belongs to *)
Section Gone.
  Variables s s' : schema.
  Hypothesis G : graphql_names s.
  Hypothesis G' : graphql_names s'.
  Hypothesis U' : names_once s'.
  Ltac start := let L := fresh "L" in let y := fresh "y" in let K := fresh "K" in let E := fresh "E" in
    intros L y K; destruct (keys_agree s s' _ _ y G G' L K) as (E & X & Y); clear L K;
    destruct y as [t''|t'' f'|t'' f' a'|d' v'|d' f'|d'|d' a']; cbn [key in_schema] in *; try discriminate E; injection E; intros.
  Ltac ats X Y := try solve [exfalso; first
      [eapply (not_at s G); [|eassumption]; first [eassumption|apply X|eapply has_field_in; first [apply X|exact X]]
      |eapply (not_at s G (DEnum _)); [apply X|eassumption]|eapply (not_at s G (DInput _)); [apply X|eassumption]
      |eapply (not_at s' G'); [|symmetry; eassumption]; first [eassumption|apply Y|eapply has_field_in; first [apply Y|exact Y]]
      |eapply (not_at s' G' (DEnum _)); [apply Y|symmetry; eassumption]|eapply (not_at s' G' (DInput _)); [apply Y|symmetry; eassumption]]].
  Ltac same u Hu t Ht := assert (Q : u = t) by (apply (type_unique s' U'); [exact Hu|exact Ht|cbn; congruence]).
  Lemma gone_type p t : (forall u, In u (s_types s') -> td_name u <> td_name t) -> leads s p (IType t) -> forall y, ~ leads s' p y.
  Proof using G G'. intros H. start; ats X Y. eapply H; eauto. Qed.
  Lemma gone_ddef p t : (forall u, In u (s_ddefs s') -> dd_name u <> dd_name t) -> leads s p (IDirective t) -> forall y, ~ leads s' p y.
  Proof using G G'. intros H. start; ats X Y. eapply H; eauto. Qed.
  Lemma gone_field p t u f : In u (s_types s') -> td_name u = td_name t -> fielded u ->
    (forall g, has_field s' u g -> fd_name g <> fd_name f) -> leads s p (IField t f) -> forall y, ~ leads s' p y.
  Proof using G G' U'.
    intros Hu N O H. start; ats X Y.
    - same u Hu t'' (proj1 (has_field_in _ _ _ Y)). subst t''. eapply H; eauto.
    - destruct Y as (Y & _). same u Hu (DEnum d') Y. subst u. destruct O as [[d O]|[d O]]; discriminate O.
    - destruct Y as (Y & _). same u Hu (DInput d') Y. subst u. destruct O as [[d O]|[d O]]; discriminate O.
  Qed.
  Lemma gone_argument p t u f g a : has_field s' u g -> td_name u = td_name t -> fd_name g = fd_name f ->
    (forall b, In b (fd_args g) -> iv_name b <> iv_name a) -> leads s p (IArgument t f a) -> forall y, ~ leads s' p y.
  Proof using G G' U'.
    intros Hu N O H. start; ats X Y. destruct Y as (Y & I). destruct (field_unique s' U' u t'' g f') as (<- & <-); auto; try congruence. eapply H; eauto.
  Qed.
  Lemma gone_enum_value p d e v : In (DEnum e) (s_types s') -> en_name e = en_name d ->
    (forall w, In w (en_values e) -> ev_name w <> ev_name v) -> leads s p (IEnumValue d v) -> forall y, ~ leads s' p y.
  Proof using G G' U'.
    intros Hu N H. start; ats X Y.
    - same (DEnum e) Hu t'' (proj1 (has_field_in _ _ _ Y)). subst t''. inversion Y.
    - destruct Y as (Y & I). same (DEnum e) Hu (DEnum d') Y. injection Q as <-. eapply H; eauto.
    - destruct Y as (Y & I). same (DEnum e) Hu (DInput d') Y. discriminate Q.
  Qed.
  Lemma gone_input_field p d e f : In (DInput e) (s_types s') -> io_name e = io_name d ->
    (forall g, In g (io_fields e) -> iv_name g <> iv_name f) -> leads s p (IInputField d f) -> forall y, ~ leads s' p y.
  Proof using G G' U'.
    intros Hu N H. start; ats X Y.
    - same (DInput e) Hu t'' (proj1 (has_field_in _ _ _ Y)). subst t''. inversion Y.
    - destruct Y as (Y & I). same (DInput e) Hu (DEnum d') Y. discriminate Q.
    - destruct Y as (Y & I). same (DInput e) Hu (DInput d') Y. injection Q as <-. eapply H; eauto.
  Qed.
  Lemma gone_ddef_argument p d e a : In e (s_ddefs s') -> dd_name e = dd_name d ->
    (forall b, In b (dd_args e) -> iv_name b <> iv_name a) -> leads s p (IDirectiveArgument d a) -> forall y, ~ leads s' p y.
  Proof using G G' U'.
    intros Hu N H. start; ats X Y. destruct Y as (Y & I). assert (e = d') as <- by (apply (ddef_unique s' U'); auto; congruence). eapply H; eauto.
  Qed.
End Gone.

Section Happens.
  Variables old new : schema.
  Hypothesis Go : graphql_names old.
  Hypothesis Gn : graphql_names new.
  Hypothesis Uo : names_once old.
  Hypothesis Un : names_once new.
  Lemma le2 s a b x : leads s (a ++ tx "." ++ b) x -> leads s (dotted [a; b]) x. Proof using Type. now rewrite path2. Qed.
  Lemma le3 s a b c x : leads s (a ++ tx "." ++ b ++ tx "." ++ c) x -> leads s (dotted [a; b; c]) x. Proof using Type. now rewrite path3. Qed.
  Ltac types := repeat match goal with
    | H : common_type _ _ _ _ |- _ => destruct H as (? & ? & ?)
    | H : common_ddef _ _ _ _ |- _ => destruct H as (? & ? & ?)
    | H : common_argument _ _ _ _ _ _ _ |- _ => destruct H as (? & ? & ? & ?)
    | H : common_field _ _ _ _ _ |- _ => apply common_field_types in H as (? & ? & <- & ? & ? & ? & ?)
    | H : common_input_field _ _ _ _ _ _ |- _ => destruct H as ((? & ? & ?) & ? & ? & ?)
    | H : common_enum_value _ _ _ _ _ _ |- _ => destruct H as ((? & ? & ?) & ? & ? & ?)
    | H : common_ddef_argument _ _ _ _ _ _ |- _ => destruct H as ((? & ? & ?) & ? & ? & ?)
    | H : only_in _ _ _ _ |- _ => destruct H as (? & ?)
    end; cbn [td_name] in *.
  Lemma le_type' s t n : In t (s_types s) -> td_name t = n -> leads s n (IType t). Proof using Type. intros H <-. now apply le_type. Qed.
  Lemma le_field' s t f n m : has_field s t f -> td_name t = n -> fd_name f = m -> leads s (dotted [n; m]) (IField t f).
  Proof using Type. intros H <- <-. apply le2. now apply le_field. Qed.
  Lemma le_argument' s t f a n m k : has_field s t f -> In a (fd_args f) -> td_name t = n -> fd_name f = m -> iv_name a = k -> leads s (dotted [n; m; k]) (IArgument t f a).
  Proof using Type. intros H I <- <- <-. apply le3. now apply le_argument. Qed.
  Lemma le_enum_value' s d v n m : In (DEnum d) (s_types s) -> In v (en_values d) -> en_name d = n -> ev_name v = m -> leads s (dotted [n; m]) (IEnumValue d v).
  Proof using Type. intros H I <- <-. apply le2. now apply le_enum_value. Qed.
  Lemma le_input_field' s d v n m : In (DInput d) (s_types s) -> In v (io_fields d) -> io_name d = n -> iv_name v = m -> leads s (dotted [n; m]) (IInputField d v).
  Proof using Type. intros H I <- <-. apply le2. now apply le_input_field. Qed.
  Lemma le_directive' s d n : In d (s_ddefs s) -> dd_name d = n -> leads s (64%N :: n) (IDirective d).
  Proof using Type. intros H <-. now apply (le_directive s d). Qed.
  Lemma le_directive_argument' s d a n m : In d (s_ddefs s) -> In a (dd_args d) -> dd_name d = n -> iv_name a = m -> leads s (64%N :: dotted [n; m]) (IDirectiveArgument d a).
  Proof using Type. intros H I <- <-. now apply (le_directive_argument s d a). Qed.
  Ltac go := try eassumption; try (now symmetry); try congruence; auto.

  Lemma real_happens c : real old new c -> ~ to_applied_directives c -> exists e, effect_of c e /\ happens old new (path_of c) e.
  Proof using Go Gn Uo Un.
    intros R A. destruct R; try (exfalso; apply A; exact I); clear A.
    - types. eexists. split; [constructor|]. cbn. split; [now apply le_type|]. eapply (gone_type old new); go. now apply le_type.
    - types. eexists. split; [constructor|]. cbn. split; [now apply le_type|]. eapply (gone_type new old); go. now apply le_type.
    - types. eexists. split; [constructor; assumption|]. cbn. split; apply le_type'; go.
    - types. eexists. split; [constructor; assumption|]. cbn. split; apply le_type'; go.
    - apply common_fields_types in H as (t & u & E' & E & (T & KT) & (T' & KT') & F & F'). destruct H0 as (I & K). rewrite <- E. exists (Adds (IField u f)).
      split; [constructor|]. assert (L : leads new (dotted [td_name u; fd_name f]) (IField u f)) by (apply le_field'; auto; now apply F'). split; [exact L|].
      refine (gone_field new old Gn Go Uo _ u t f T _ KT _ L); [congruence|]. intros g Hg. apply K. now apply F.
    - apply common_fields_types in H as (t & u & E' & E & (T & KT) & (T' & KT') & F & F'). destruct H0 as (I & K). rewrite <- E'. exists (Removes (IField t f)).
      split; [constructor|]. assert (L : leads old (dotted [td_name t; fd_name f]) (IField t f)) by (apply le_field'; auto; now apply F). split; [exact L|].
      refine (gone_field old new Go Gn Un _ t u f T' _ KT' _ L); [congruence|]. intros g Hg. apply K. now apply F'.
    - types. eexists. split; [econstructor; eassumption|]. split; eapply le_field'; go.
    - types. eexists. split; [econstructor; eassumption|]. split; eapply le_field'; go.
    - apply common_field_types in H as (t & u & E & <- & F & F' & N). destruct H0 as (I & K). exists (Adds (IArgument u g a)).
      split; [constructor|]. assert (L : leads new (dotted [td_name u; fd_name g; iv_name a]) (IArgument u g a)) by (apply le_argument'; auto). split; [exact L|].
      refine (gone_argument new old Gn Go Uo _ u t g f a F E N K L).
    - types. eexists. split; [constructor|]. assert (L : leads old (dotted [td_name x; fd_name f; iv_name a]) (IArgument x f a)) by (apply le_argument'; auto).
      split; [exact L|]. refine (gone_argument old new Go Gn Un _ _ _ f _ a _ _ _ _ L); go.
    - types. eexists. split; [econstructor; eassumption|]. split; eapply le_argument'; go.
    - types. eexists. split; [econstructor; eassumption|]. split; eapply le_argument'; go.
    - types. eexists. split; [econstructor; eassumption|]. split; eapply le_argument'; go.
    - types. eexists. split; [eapply ef_interface_added; eassumption|]. split; apply le_type'; go.
    - types. eexists. split; [eapply ef_interface_removed; eassumption|]. split; apply le_type'; go.
    - types. eexists. split; [constructor|]. assert (L : leads new (dotted [en_name b; ev_name v]) (IEnumValue b v)) by (apply le_enum_value'; auto).
      split; [exact L|]. refine (gone_enum_value new old Gn Go Uo _ _ _ v _ _ _ L); go.
    - types. eexists. split; [constructor|]. assert (L : leads old (dotted [en_name a; ev_name v]) (IEnumValue a v)) by (apply le_enum_value'; auto).
      split; [exact L|]. refine (gone_enum_value old new Go Gn Un _ _ _ v _ _ _ L); go.
    - types. eexists. split; [econstructor; eassumption|]. split; eapply le_enum_value'; go.
    - types. eexists. split; [eapply ef_member_added; eassumption|]. split; apply le_type'; go.
    - types. eexists. split; [eapply ef_member_removed; eassumption|]. split; apply le_type'; go.
    - types. eexists. split; [constructor|]. assert (L : leads new (dotted [io_name b; iv_name f]) (IInputField b f)) by (apply le_input_field'; auto).
      split; [exact L|]. refine (gone_input_field new old Gn Go Uo _ _ _ f _ _ _ L); go.
    - types. eexists. split; [constructor|]. assert (L : leads old (dotted [io_name a; iv_name f]) (IInputField a f)) by (apply le_input_field'; auto).
      split; [exact L|]. refine (gone_input_field old new Go Gn Un _ _ _ f _ _ _ L); go.
    - types. eexists. split; [econstructor; eassumption|]. split; eapply le_input_field'; go.
    - types. eexists. split; [econstructor; eassumption|]. split; eapply le_input_field'; go.
    - types. eexists. split; [econstructor; eassumption|]. split; eapply le_input_field'; go.
    - types. eexists. split; [constructor|]. split; [now apply le_directive'|]. eapply (gone_ddef new old); go. now apply le_directive.
    - types. eexists. split; [constructor|]. split; [now apply le_directive'|]. eapply (gone_ddef old new); go. now apply le_directive.
    - types. eexists. split; [eapply ef_location_added; eassumption|]. split; apply le_directive'; go.
    - types. eexists. split; [eapply ef_location_removed; eassumption|]. split; apply le_directive'; go.
    - types. eexists. split; [econstructor; eassumption|]. split; apply le_directive'; go.
    - types. eexists. split; [constructor|]. assert (L : leads new (64%N :: dotted [dd_name e; iv_name a]) (IDirectiveArgument e a)) by (apply le_directive_argument'; auto).
      split; [exact L|]. refine (gone_ddef_argument new old Gn Go Uo _ _ _ a _ _ _ L); go.
    - types. exists (Removes (IDirectiveArgument d a)). split; [now constructor|].
      assert (L : leads old (64%N :: dotted [dd_name e; iv_name a]) (IDirectiveArgument d a)) by (apply le_directive_argument'; auto).
      split; [exact L|]. refine (gone_ddef_argument old new Go Gn Un _ _ _ a _ _ _ L); go.
    - types. eexists. split; [econstructor; eassumption|]. split; eapply le_directive_argument'; go.
    - types. eexists. split; [econstructor; eassumption|]. split; eapply le_directive_argument'; go.
    - types. eexists. split; [econstructor; eassumption|]. split; eapply le_directive_argument'; go.
  Qed.
End Happens.
