(** A schema that keeps what an older one offers keeps its valid documents valid; and a comparison that finds nothing breaking. *)
From Verif Require Import Base Ast Lexer DefParser DefParserSpec DefParserProofs DefParserProps Resolve ResolveSpec ResolveProofs ResolveProps 
  CoercionTypes CoercionSpec Graph Doc DocSpec DocRules DocRulesSpec FragmentsSpec DocVariablesSpec MergingSpec ValueEqSpec ValueEq ValiditySpec
  Compare CompareSpec CompareProofs CompareProps CompatSpec.

(** * Lookups *)
Lemma find_unique {A} (nm : A -> name) l x n : NoDup (map nm l) -> In x l -> nm x = n -> find (fun y => teqb (nm y) n) l = Some x.
Proof.
  intros ND H E. induction l as [|y l IH]; [contradiction|]. cbn [map find] in *. inversion ND as [|? ? N ND']; subst.
  destruct (teqb (nm y) (nm x)) eqn:Q.
  - apply teqb_eq in Q. destruct H as [<-|H]; [reflexivity|]. exfalso. apply N. rewrite Q. now apply in_map.
  - destruct H as [->|H]; [now rewrite teqb_refl in Q|auto].
Qed.
Lemma same_named {A} (nm : A -> name) l x y : NoDup (map nm l) -> In x l -> In y l -> nm x = nm y -> x = y.
Proof. intros ND H K E. pose proof (find_unique nm l x (nm y) ND H E) as F. rewrite (find_unique nm l y (nm y) ND K eq_refl) in F. congruence. Qed.
Lemma get_ddef_Some s n d : get_ddef s n = Some d -> In d (s_ddefs s) /\ dd_name d = n.
Proof. unfold get_ddef. intros H. apply find_some in H as [H1 H2]. apply teqb_eq in H2. auto. Qed.
Lemma defined_fragment d n f : defines d n f -> In f (doc_frags d).
Proof. intros (b & a & -> & _). apply in_app_iff. right. now left. Qed.

(** * Types *)
Lemma compatible_refl t : compatible t t.
Proof. induction t; constructor; auto. Qed.
Lemma compatible_trans a b : compatible a b -> forall c, compatible b c -> compatible a c.
Proof. induction 1; intros c H'; inversion H'; subst; constructor; auto. Qed.
Lemma compatible_base a b : compatible a b -> tref_base b = tref_base a.
Proof. induction 1; cbn; auto. Qed.
Lemma compatible_required a b : compatible a b -> tref_required b = true -> tref_required a = true.
Proof. intros H; destruct H; cbn; auto. Qed.
Lemma compatible_nullable a b : compatible a b -> compatible (tref_nullable a) (tref_nullable b).
Proof. intros H; destruct H; cbn; constructor; auto. Qed.
Lemma compatible_is_nullable a b : compatible (tref_nullable a) b -> compatible a b.
Proof. destruct a; cbn; intros H; inversion H; subst; constructor; auto; intros E; specialize (H2 E) || specialize (H3 E); discriminate. Qed.
Lemma nullable_id t : tref_required t = false -> tref_nullable t = t.
Proof. destruct t; cbn; intros ->; reflexivity. Qed.
Lemma keeps_input_refl a : keeps_input a a.
Proof. split; [apply compatible_refl|auto]. Qed.

Lemma usage_kept vt vdef lt ldef lt' ldef' : compatible lt lt' -> (has_non_null_value ldef -> has_non_null_value ldef') ->
  usage_ok vt vdef lt ldef -> usage_ok vt vdef lt' ldef'.
Proof.
  intros C D [H|(R & N & H)].
  - left. eapply compatible_trans; eauto.
  - destruct (tref_required lt') eqn:R'.
    + right. split; [exact R'|split; [tauto|]]. eapply compatible_trans; [exact H|]. now apply compatible_nullable.
    + left. eapply compatible_trans; [exact H|]. rewrite <- (nullable_id _ R'). now apply compatible_nullable.
Qed.

(** arguments on both sides: kept, or the very same *)
Definition kept_inputs (l l' : list ivd) : Prop := l = l' \/ keeps_inputs l l' /\ NoDup (map iv_name l').
Lemma kept_get l l' n i : kept_inputs l l' -> get_ivd l n = Some i -> exists j, get_ivd l' n = Some j /\ keeps_input i j.
Proof.
  intros [<-|((K & _) & ND)] H; [eauto using keeps_input_refl|]. apply get_ivd_Some in H as (H & E).
  destruct (K i H) as (j & Hj & Ej & Kj). exists j. split; [|exact Kj]. apply find_unique; auto. congruence.
Qed.
Lemma kept_required l l' j : kept_inputs l l' -> In j l' -> tref_required (iv_type j) = true -> iv_default j = None ->
  exists i, In i l /\ iv_name i = iv_name j /\ tref_required (iv_type i) = true /\ iv_default i = None.
Proof.
  intros [<-|((K & N) & ND)] H R D; [eauto 6|].
  destruct (get_ivd l (iv_name j)) as [i|] eqn:G.
  - apply get_ivd_Some in G as (G & E). destruct (K i G) as (j' & Hj & Ej & C & D' & _).
    assert (j' = j) by (eapply (same_named iv_name); eauto; congruence). subst j'. exists i. repeat split; auto.
    + eapply compatible_required; eauto.
    + destruct (iv_default i); [|reflexivity]. exfalso. apply D'; [discriminate|exact D].
  - pose proof (proj1 (get_ivd_None _ _) G) as G'. specialize (N j H G'). unfold iv_required in N. rewrite R, D in N. discriminate.
Qed.
Lemma kept_In l l' i : kept_inputs l l' -> In i l -> exists j, In j l' /\ iv_name j = iv_name i /\ keeps_input i j.
Proof. intros [<-|((K & _) & ND)] H; [eauto using keeps_input_refl|auto]. Qed.
Lemma kept_In_back l l' i j : kept_inputs l l' -> NoDup (map iv_name l') -> In i l -> In j l' -> iv_name i = iv_name j -> keeps_input i j.
Proof.
  intros [<-|((K & _) & _)] ND H H' E.
  - assert (i = j) by (eapply (same_named iv_name); eauto). subst. apply keeps_input_refl.
  - destruct (K i H) as (j' & Hj & Ej & C). assert (j' = j) by (eapply (same_named iv_name); eauto; congruence). now subst.
Qed.

Section Keeps.
  Variable shapes : Prop.
  Variables old new : schema.
  Hypothesis Kp : keeps shapes old new.
  Hypothesis Un : names_once new.

  Lemma type_kept n t : get_type old n = Some t -> exists u, get_type new n = Some u /\ keeps_type shapes t u.
  Proof using Kp Un.
    intros H. apply get_type_Some in H as (H & E). destruct (kp_types _ _ _ Kp t H) as (u & Hu & Eu & K). exists u. split; [|exact K].
    apply find_unique; [apply (once_types _ Un)|exact Hu|congruence].
  Qed.
  Lemma types_kept n t u : get_type old n = Some t -> get_type new n = Some u -> keeps_type shapes t u.
  Proof using Kp Un. intros H H'. destruct (type_kept n t H) as (u' & Hu & K). congruence. Qed.
  Lemma ddef_kept n d : get_ddef old n = Some d -> exists e, get_ddef new n = Some e /\ keeps_directive d e.
  Proof using Kp Un.
    intros H. apply get_ddef_Some in H as (H & E). destruct (kp_directives _ _ _ Kp d H) as (e & He & Ee & K). exists e. split; [|exact K].
    apply find_unique; [apply (once_ddefs _ Un)|exact He|congruence].
  Qed.
  Lemma kt_name t u : keeps_type shapes t u -> td_name t = td_name u.
  Proof using Type. intros [b|a b H|a b H|a b H|a b H|a b H|a b H]; cbn; auto. Qed.
  Lemma kt_leaf t u : keeps_type shapes t u -> is_leaf t <-> is_leaf u.
  Proof using Type. intros [b|a b H|a b H|a b H|a b H|a b H|a b H]; cbn; tauto. Qed.
  Lemma kt_composite t u : keeps_type shapes t u -> td_composite t = td_composite u.
  Proof using Type. intros [b|a b H|a b H|a b H|a b H|a b H|a b H]; reflexivity. Qed.
  Lemma kt_is_input t u : keeps_type shapes t u -> td_is_input t = td_is_input u.
  Proof using Type. intros [b|a b H|a b H|a b H|a b H|a b H|a b H]; reflexivity. Qed.
  Lemma kt_is_object t u : keeps_type shapes t u -> is_object t <-> is_object u.
  Proof using Type. intros [b|a b H|a b H|a b H|a b H|a b H|a b H]; cbn; tauto. Qed.

  (** the type and its successor, both looked up by one name *)
  Definition rel (t u : tdef) : Prop := exists n, get_type old n = Some t /\ get_type new n = Some u.
  Lemma rel_kept t u : rel t u -> keeps_type shapes t u.
  Proof using Kp Un. intros (n & H & H'). eapply types_kept; eauto. Qed.
  Lemma rel_get n t : get_type old n = Some t -> exists u, get_type new n = Some u /\ rel t u.
  Proof using Kp Un. intros H. destruct (type_kept n t H) as (u & Hu & K). exists u. split; [exact Hu|exists n; auto]. Qed.

  Definition field_kept (f g : fdef) : Prop :=
    tref_base (fd_type g) = tref_base (fd_type f) /\ (shapes -> fd_type g = fd_type f) /\ kept_inputs (fd_args f) (fd_args g).
  Lemma has_field_kept t u n f : rel t u -> has_field t n f -> exists g, has_field u n g /\ field_kept f g.
  Proof using Kp Un.
    intros R H. pose proof (rel_kept t u R) as K. destruct R as (m & Ht & Hu). apply get_type_Some in Hu as (Hu & _). unfold has_field in *.
    assert (X : forall l l', keeps_fields shapes l l' -> fields_in new l' -> get_field l n = Some f -> exists g, get_field l' n = Some g /\ field_kept f g).
    { intros l l' KF FI G. apply get_field_Some in G as (G & E). destruct (KF f G) as (g & Hg & Eg & Eb & Es & Ka). exists g. split.
      - apply find_unique; [apply (once_fields _ Un); auto|exact Hg|congruence].
      - split; [exact Eb|split; [exact Es|]]. right. split; [exact Ka|]. apply (once_inputs _ Un). eapply ii_field; eauto. }
    destruct K as [b|a b H1|a b H1 H2 H3|a b H1 H2|a b H1 H2 H3|a b H1 H2|a b H1 H2]; cbn [td_fields] in *; try discriminate.
    - eapply X; eauto. now constructor.
    - eapply X; eauto. now constructor.
    - destruct H3 as [H3|H3]; [|rewrite H3 in H; discriminate]. rewrite <- H3. exists f. split; [exact H|]. split; [reflexivity|split; [reflexivity|now left]].
  Qed.
  Lemma has_field_back t u n f g : rel t u -> has_field t n f -> has_field u n g -> field_kept f g.
  Proof using Kp Un. intros R H H'. destruct (has_field_kept t u n f R H) as (g' & Hg & K). unfold has_field in *. congruence. Qed.

  Lemma possible_kept t u n : rel t u -> possible old t n -> possible new u n.
  Proof using Kp Un.
    intros R P. pose proof (rel_kept t u R) as K.
    destruct K as [b|a b H1|a b H1 H2 H3|a b H1 H2|a b H1 H2 H3|a b H1 H2|a b H1 H2]; inversion P; subst.
    - rewrite H1. constructor.
    - destruct (kp_types _ _ _ Kp _ H0) as (x & Hx & Ex & Kx). inversion Kx as [| |o' x' E1 E2 E3| | | |]; subst. rewrite E1. constructor; [exact Hx|]. rewrite <- H1. auto.
    - constructor. auto.
  Qed.

  (** ** values *)
  Section Values.
    Variable accepts : name -> value -> Prop.
    Variables str_enum one_of : bool.
    Lemma conforms_kept : forall t v, conforms accepts str_enum one_of old t v -> forall t', compatible t t' -> conforms accepts str_enum one_of new t' v.
    Proof using Kp Un.
      fix IH 3. intros t v D. destruct D as [t H|t x|n r b v G A|n r d v G N V A|n r d v G A|n r d es G ND U C Q O|inner r vs C|inner r v N V L C]; intros t' K.
      - apply c_null. destruct (tref_required t') eqn:E; [|reflexivity]. rewrite (compatible_required _ _ K E) in H. discriminate.
      - apply c_var.
      - inversion K; subst. destruct (type_kept _ _ G) as (u & Gu & Ku). inversion Ku; subst. eapply c_builtin; eauto.
      - inversion K; subst. destruct (type_kept _ _ G) as (u & Gu & Ku). inversion Ku as [|a b E| | | | |]; subst. eapply c_scalar; eauto. now rewrite <- E.
      - inversion K; subst. destruct (type_kept _ _ G) as (u & Gu & Ku). inversion Ku as [| | | | |a b E W|]; subst. eapply c_enum; eauto.
        destruct A as (e & He & Hv). destruct (W e He) as (w & Hw & Ew). exists w. rewrite Ew. auto.
      - assert (C1 : forall i v, In i (io_fields d) -> In (iv_name i, v) es -> forall t', compatible (iv_type i) t' -> conforms accepts str_enum one_of new t' v)
          by (intros i v Hi Hv; exact (IH (iv_type i) v (C i v Hi Hv))). clear C IH.
        inversion K; subst. destruct (type_kept _ _ G) as (u & Gu & Ku). inversion Ku as [| | | | | |a b E (KI & KN) KO]; subst.
        assert (NB : NoDup (map iv_name (io_fields b))). { apply (once_inputs _ Un). apply ii_object. now apply get_type_Some in Gu. }
        eapply c_object; eauto.
        + intros k v Hv. destruct (U k v Hv) as (i & Hi & Ei). destruct (KI i Hi) as (j & Hj & Ej & _). exists j. split; [exact Hj|congruence].
        + intros j v Hj Hv. destruct (U _ _ Hv) as (i & Hi & Ei).
          assert (Hv' : In (iv_name i, v) es) by now rewrite Ei.
          apply (C1 i v Hi Hv').
          eapply (kept_In_back (io_fields d) (io_fields b)); eauto. right. split; [split|]; auto.
        + intros j Hj R D. destruct (kept_required (io_fields d) (io_fields b) j) as (i & Hi & Ei & Ri & Di); auto.
          { right. split; [split|]; auto. }
          rewrite <- Ei. now apply Q.
        + intros (M1 & M2). apply O. split; [exact M1|]. now apply KO.
      - assert (C1 : forall x, In x vs -> forall t', compatible inner t' -> conforms accepts str_enum one_of new t' x)
          by (exact (fun x Hx => match C x Hx with conj p _ => IH inner x p end)).
        assert (C2 : forall x, In x vs -> no_promotion inner x) by (intros x Hx; exact (proj2 (C x Hx))). clear C IH.
        inversion K as [|vt lt vr lr HR HC]; subst. apply c_list. intros x Hx. split; [exact (C1 x Hx lt HC)|].
        pose proof (C2 x Hx) as P. clear - HC P. destruct HC; destruct x; cbn in *; auto.
      - pose proof (IH inner v C) as C1. clear C IH. inversion K as [|vt lt vr lr HR HC]; subst. apply c_promote; auto.
    Qed.

    (** ** variables in values *)
    Lemma conforms_object t es : conforms accepts str_enum one_of old t (VObj es) ->
      (exists d, get_type old (tref_base t) = Some (DScalar d)) \/
      (exists d, get_type old (tref_base t) = Some (DInput d) /\ (forall k v, In (k, v) es -> exists i, In i (io_fields d) /\ iv_name i = k) /\
         (forall i v, In i (io_fields d) -> In (iv_name i, v) es -> conforms accepts str_enum one_of old (iv_type i) v)).
    Proof using Kp Un.
      induction t as [n r|t IH r]; intros C; inversion C; subst; cbn [tref_base]; eauto 8.
      - match goal with H : builtin_accepts ?b _ |- _ => destruct b; cbn in H; firstorder discriminate end.
      - match goal with H : enum_accepts _ _ _ |- _ => destruct H as (e & _ & [H|(_ & H)]); discriminate end.
    Qed.
    Lemma located_kept t' df' v x l' ld' : located new t' df' v x l' ld' ->
      forall t df, compatible t t' -> (has_non_null_value df -> has_non_null_value df') -> conforms accepts str_enum one_of old t v ->
      exists l ld, located old t df v x l ld /\ compatible l l' /\ (has_non_null_value ld -> has_non_null_value ld').
    Proof using Kp Un.
      induction 1 as [t' df' x|inner' r df' vs v x l' ld' Hv L IH|t' df' io' es k v f' x l' ld' G Hv Gf L IH]; intros t df K D C.
      - exists t, df. split; [constructor|auto].
      - inversion K as [|vt lt vr lr HR HC]; subst. inversion C; subst; try (exfalso; congruence).
        destruct (IH vt None HC) as (l & ld & Ll & Kl & Dl); [intros (? & E & _); discriminate| |].
        { match goal with H : forall x, In x vs -> _ |- _ => now apply H end. }
        exists l, ld. split; [eapply loc_item; eauto|auto].
      - rewrite (compatible_base _ _ K) in G. destruct (conforms_object _ _ C) as [(d & Gd)|(d & Gd & U & Cf)].
        + pose proof (types_kept _ _ _ Gd G) as X. inversion X.
        + pose proof (types_kept _ _ _ Gd G) as X. inversion X as [| | | | | |a b E (KI & KN) KO]; subst.
          assert (NB : NoDup (map iv_name (io_fields io'))). { apply (once_inputs _ Un). apply ii_object. now apply get_type_Some in G. }
          destruct (U k v Hv) as (i & Hi & Ei). destruct (get_ivd (io_fields d) k) as [f|] eqn:Gi.
          2:{ apply get_ivd_None with (f := i) in Gi; auto. contradiction. }
          destruct (get_ivd_Some _ _ _ Gi) as (Hf & Ef). destruct (get_ivd_Some _ _ _ Gf) as (Hf' & Ef').
          assert (Kf : keeps_input f f').
          { eapply (kept_In_back (io_fields d) (io_fields io')); eauto; [|congruence]. right. split; [split|]; auto. }
          destruct Kf as (Kt & _ & Kd). destruct (IH (iv_type f) (iv_default f) Kt Kd) as (l & ld & Ll & Kl & Dl).
          { apply Cf; auto. now rewrite Ef. }
          exists l, ld. split; [eapply loc_field; eauto|auto].
    Qed.
  End Values.

  (** ** places *)
  Section Document.
    Variable d : document.
    Hypothesis Ok : document_ok old d.

    Definition all_ok (t : tdef) (sels : list selection) : Prop := forall s, In s sels -> sel_ok old t s.
    Lemma sel_field t al n args ds sub : sel_ok old t (SField al n args ds sub) ->
      exists f ft, has_field t n f /\ get_type old (tref_base (fd_type f)) = Some ft /\ all_ok ft sub.
    Proof using Type.
      intros H. inversion H; subst; unfold has_field; eauto 6. exists fd, ft. split; [assumption|split; [assumption|]]. intros s [].
    Qed.
    Lemma within_kept t' sels u' sub : within new t' sels u' sub -> forall t, rel t t' -> all_ok t sels ->
      exists u, within old t sels u sub /\ rel u u' /\ all_ok u sub.
    Proof using Kp Un.
      induction 1 as [t' sels|t' sels al n args ds sub g t1' u' sels' Hin Ne Hf G W IH|t' sels ds sub u' sels' Hin W IH|t' sels c ds sub t1' u' sels' Hin G W IH]; intros t R A.
      - exists t. split; [constructor|auto].
      - destruct (sel_field _ _ _ _ _ _ (A _ Hin)) as (f & ft & Ff & Gf & As). pose proof (has_field_back _ _ _ _ _ R Ff Hf) as (Eb & _ & _).
        rewrite Eb in G. destruct (IH ft) as (u & Wu & Ru & Au); [exists (tref_base (fd_type f)); auto|exact As|].
        exists u. split; [|auto]. eapply within_field; eauto.
      - pose proof (A _ Hin) as X. inversion X; subst. destruct (IH t R) as (u & Wu & Ru & Au); [assumption|]. exists u. split; [|auto]. eapply within_inline; eauto.
      - pose proof (A _ Hin) as X. inversion X; subst. destruct (IH ft) as (u & Wu & Ru & Au); [exists c; auto|assumption|]. exists u. split; [|auto]. eapply within_inline_on; eauto.
    Qed.
    Lemma root_kept ty t u : root_type old ty t -> root_type new ty u -> rel t u.
    Proof using Kp.
      destruct (kp_roots _ _ _ Kp) as [Rq Rm Rs]. destruct ty; cbn [root_type].
      - rewrite Rq. intros H H'. exists (s_query old). auto.
      - intros (n & E & H) (n' & E' & H'). rewrite (Rm n E) in E'. inversion E'; subst. exists n'. auto.
      - intros (n & E & H) (n' & E' & H'). rewrite (Rs n E) in E'. inversion E'; subst. exists n'. auto.
    Qed.
    Lemma root_found ty t : root_type old ty t -> exists u, root_type new ty u.
    Proof using Kp Un.
      destruct (kp_roots _ _ _ Kp) as [Rq Rm Rs]. destruct ty; cbn [root_type].
      - rewrite Rq. intros H. destruct (rel_get _ _ H) as (u & G & _). eauto.
      - intros (n & E & H). destruct (rel_get _ _ H) as (u & G & _). eauto.
      - intros (n & E & H). destruct (rel_get _ _ H) as (u & G & _). eauto.
    Qed.
    Lemma set_kept r u sels : set_at new d r u sels -> exists t, set_at old d r t sels /\ rel t u /\ all_ok t sels.
    Proof using Kp Un Ok.
      intros (t0' & sels0 & T & W). assert (X : exists t0, top old d r t0 sels0 /\ rel t0 t0' /\ all_ok t0 sels0).
      { destruct T as [i o t0' Ho Rt|i f t0' Hf Gf].
        - destruct (proj1 Ok o) as (t0 & R0 & A0); [eapply nth_error_In; eauto|]. exists t0. split; [constructor; auto|]. split; [eapply root_kept; eauto|exact A0].
        - destruct (proj2 Ok f) as (t0 & R0 & _ & A0); [eapply nth_error_In; eauto|]. exists t0. split; [constructor; auto|]. split; [exists (fr_cond f); auto|exact A0]. }
      destruct X as (t0 & T0 & R0 & A0). destruct (within_kept _ _ _ _ W t0 R0 A0) as (t & Wt & Rt & At). exists t. split; [exists t0, sels0; auto|auto].
    Qed.
    Lemma sel_kept r u s : sel_at new d r u s -> exists t, sel_at old d r t s /\ rel t u /\ sel_ok old t s.
    Proof using Kp Un Ok. intros (sels & H & Hs). destruct (set_kept r u sels H) as (t & Ht & R & A). exists t. split; [exists sels; auto|auto]. Qed.
    Lemma field_at_kept r u al n args ds sub g : sel_at new d r u (SField al n args ds sub) -> has_field u n g ->
      exists t f, sel_at old d r t (SField al n args ds sub) /\ has_field t n f /\ rel t u /\ field_kept f g.
    Proof using Kp Un Ok.
      intros H Hg. destruct (sel_kept r u _ H) as (t & Ht & R & A). destruct (sel_field _ _ _ _ _ _ A) as (f & ft & Ff & _ & _).
      exists t, f. split; [exact Ht|split; [exact Ff|split; [exact R|]]]. eapply has_field_back; eauto.
    Qed.
    Lemma directives_kept r ds loc : directives_at new d r ds loc -> directives_at old d r ds loc.
    Proof using Kp Un Ok.
      intros H. destruct H as [i o Ho N|i f Hf N|r t al n args ds sub fd H Hf N|r t n ds H N|r t c ds sub H N].
      - now constructor.
      - now constructor.
      - destruct (field_at_kept _ _ _ _ _ _ _ _ H Hf) as (t0 & f & Ht & Ff & _). eapply dirs_field; eauto.
      - destruct (sel_kept _ _ _ H) as (t0 & Ht & _). eapply dirs_spread; eauto.
      - destruct (sel_kept _ _ _ H) as (t0 & Ht & _). eapply dirs_inline; eauto.
    Qed.
    Lemma directive_kept x loc : directive_at new d x loc -> directive_at old d x loc.
    Proof using Kp Un Ok. intros [r ds l y H Hy|ds y H Hy]; [eapply dir_var; eauto using directives_kept|eapply dir_const; eauto]. Qed.

    Hypothesis Defined : forall x loc, directive_at old d x loc -> exists dd, In dd (s_ddefs old) /\ dd_name dd = dir_name x.
    Lemma ddef_back x loc e : directive_at old d x loc -> get_ddef new (dir_name x) = Some e ->
      exists dd, get_ddef old (dir_name x) = Some dd /\ keeps_directive dd e /\ kept_inputs (dd_args dd) (dd_args e).
    Proof using Kp Un Defined.
      intros H G. destruct (Defined x loc H) as (dd0 & Hd & Ed). destruct (get_ddef old (dir_name x)) as [dd|] eqn:Go.
      - destruct (ddef_kept _ _ Go) as (e' & Ge & Ke). assert (e' = e) by congruence. subst e'. exists dd. split; [reflexivity|split; [exact Ke|]].
        right. split; [apply Ke|]. apply (once_inputs _ Un). apply ii_directive. now apply get_ddef_Some in G.
      - exfalso. unfold get_ddef in Go. apply find_none with (x := dd0) in Go; [|exact Hd]. rewrite Ed, teqb_refl in Go. discriminate.
    Qed.
    Lemma args_kept w' args defs' : args_at new d w' args defs' -> exists w defs, args_at old d w args defs /\ kept_inputs defs defs'.
    Proof using Kp Un Ok Defined.
      intros [r t al n args' ds sub fd H Hf|r ds loc x dd H Hx G|ds x dd H Hx G].
      - destruct (field_at_kept _ _ _ _ _ _ _ _ H Hf) as (t0 & f & Ht & Ff & _ & _ & _ & Ka). exists (OwnField f), (fd_args f). split; [eapply args_field; eauto|exact Ka].
      - apply directives_kept in H. destruct (ddef_back x loc dd) as (dd0 & G0 & _ & Ka); [eapply dir_var; eauto|exact G|].
        exists (OwnDirective dd0), (dd_args dd0). split; [eapply args_directive; eauto|exact Ka].
      - destruct (ddef_back x LVariableDefinition dd) as (dd0 & G0 & _ & Ka); [eapply dir_const; eauto|exact G|].
        exists (OwnDirective dd0), (dd_args dd0). split; [eapply args_const_directive; eauto|exact Ka].
    Qed.
    Hypothesis Known : forall w args defs, args_at old d w args defs -> forall a, In a args -> exists i, In i defs /\ iv_name i = fst a.
    Lemma ivd_back defs defs' args w a j : kept_inputs defs defs' -> args_at old d w args defs -> In a args -> get_ivd defs' (fst a) = Some j ->
      exists i, get_ivd defs (fst a) = Some i /\ keeps_input i j.
    Proof using Known.
      intros K A Ha G. destruct (Known w args defs A a Ha) as (i0 & Hi & Ei). destruct (get_ivd defs (fst a)) as [i|] eqn:Go.
      - destruct (kept_get _ _ _ _ K Go) as (j' & Gj & Kj). exists i. split; [reflexivity|]. congruence.
      - exfalso. apply get_ivd_None with (f := i0) in Go; auto.
    Qed.
    Lemma argument_kept r a j : argument_at new d r a j -> exists i, argument_at old d r a i /\ keeps_input i j.
    Proof using Kp Un Ok Defined Known.
      intros [r' t al n args ds sub fd a' i H Hf Ha G|r' ds loc x dd a' i H Hx Gd Ha G].
      - destruct (field_at_kept _ _ _ _ _ _ _ _ H Hf) as (t0 & f & Ht & Ff & _ & _ & _ & Ka).
        destruct (ivd_back (fd_args f) (fd_args fd) args (OwnField f) a' i) as (i0 & Gi & Ki); auto; [eapply args_field; eauto|].
        exists i0. split; [eapply arg_field; eauto|exact Ki].
      - apply directives_kept in H. destruct (ddef_back x loc dd) as (dd0 & G0 & _ & Ka); [eapply dir_var; eauto|exact Gd|].
        destruct (ivd_back (dd_args dd0) (dd_args dd) (dir_args x) (OwnDirective dd0) a' i) as (i0 & Gi & Ki); auto; [eapply args_directive; eauto|].
        exists i0. split; [eapply arg_directive; eauto|exact Ki].
    Qed.
    Lemma const_argument_kept a j : const_argument_at new d a j -> exists i, const_argument_at old d a i /\ keeps_input i j.
    Proof using Kp Un Ok Defined Known.
      intros (ds & x & dd & H & Hx & Gd & Ha & G).
      destruct (ddef_back x LVariableDefinition dd) as (dd0 & G0 & _ & Ka); [eapply dir_const; eauto|exact Gd|].
      destruct (ivd_back (dd_args dd0) (dd_args dd) (dir_args x) (OwnDirective dd0) a j) as (i0 & Gi & Ki); auto; [eapply args_const_directive; eauto|].
      exists i0. split; [exists ds, x, dd0; auto|exact Ki].
    Qed.
    Lemma refers_kept r r' : refers new d r r' -> refers old d r r'.
    Proof using Kp Un Ok. intros [r0 t n ds j H D]. destruct (sel_kept _ _ _ H) as (t0 & Ht & _). econstructor; eauto. Qed.
    Lemma star_kept r r' : star (refers new d) r r' -> star (refers old d) r r'.
    Proof using Kp Un Ok. induction 1; econstructor; eauto using refers_kept. Qed.

    (** the selections still make sense *)
    Lemma sel_ok_kept t s : sel_ok old t s -> forall u, rel t u -> sel_ok new u s.
    Proof using Kp Un.
      induction 1 as [t al n args ds fd ft Gf Gt L|t al n args ds sub fd ft Gf Gt L Ne A IH|t n ds|t ds sub A IH|t c ds sub ft Gt C A IH]; intros u R.
      - destruct (has_field_kept t u n fd R Gf) as (g & Hg & Eb & _). destruct (rel_get _ _ Gt) as (gt & Ggt & Rt).
        eapply ok_leaf; [exact Hg|rewrite Eb; exact Ggt|]. now rewrite <- (kt_leaf ft gt (rel_kept _ _ Rt)).
      - destruct (has_field_kept t u n fd R Gf) as (g & Hg & Eb & _). destruct (rel_get _ _ Gt) as (gt & Ggt & Rt).
        eapply ok_composite; [exact Hg|rewrite Eb; exact Ggt| |exact Ne|auto]. now rewrite <- (kt_leaf ft gt (rel_kept _ _ Rt)).
      - constructor.
      - constructor; auto.
      - destruct (rel_get _ _ Gt) as (gt & Ggt & Rt). eapply ok_inline_on; [exact Ggt| |auto]. now rewrite <- (kt_composite ft gt (rel_kept _ _ Rt)).
    Qed.
    Lemma document_ok_kept : document_ok new d.
    Proof using Kp Un Ok.
      split.
      - intros o Ho. destruct (proj1 Ok o Ho) as (t & R & A). destruct (root_found _ _ R) as (u & Ru). exists u. split; [exact Ru|].
        intros s Hs. eapply sel_ok_kept; eauto. eapply root_kept; eauto.
      - intros f Hf. destruct (proj2 Ok f Hf) as (t & G & C & A). destruct (rel_get _ _ G) as (u & Gu & R). exists u. split; [exact Gu|].
        split; [now rewrite <- (kt_composite _ _ (rel_kept _ _ R))|]. intros s Hs. eapply sel_ok_kept; eauto.
    Qed.

    (** ** merging *)
    Definition srel (x y : sfield) : Prop :=
      sf_alias x = sf_alias y /\ sf_name x = sf_name y /\ sf_args x = sf_args y /\ sf_sub x = sf_sub y /\
      rel (sf_parent x) (sf_parent y) /\ fd_type (sf_def y) = fd_type (sf_def x) /\
      exists ft, get_type old (tref_base (fd_type (sf_def x))) = Some ft /\ all_ok ft (sf_sub x).
    Hypothesis Sh : shapes.
    Lemma collected_kept u sels y : collected new d u sels y -> forall t, rel t u -> all_ok t sels ->
      exists x, collected old d t sels x /\ srel x y.
    Proof using Kp Un Ok Sh.
      induction 1 as [u sels al n args ds sub g Hin Hg|u sels ds sub y Hin C IH|u sels c ds sub t1 y Hin G C IH|u sels n ds f t1 y Hin D G C IH]; intros t R A.
      - destruct (sel_field _ _ _ _ _ _ (A _ Hin)) as (f & ft & Ff & Gf & As). pose proof (has_field_back _ _ _ _ _ R Ff Hg) as (_ & Es & _).
        eexists. split; [eapply col_field; eauto|]. repeat (split; [solve [cbn; auto]|]). exists ft. auto.
      - pose proof (A _ Hin) as X. inversion X; subst. destruct (IH t R) as (x & Cx & Sx); [assumption|]. exists x. split; [|exact Sx]. eapply col_inline; eauto.
      - pose proof (A _ Hin) as X. inversion X; subst. destruct (IH ft) as (x & Cx & Sx); [exists c; auto|assumption|]. exists x. split; [|exact Sx]. eapply col_inline_on; eauto.
      - destruct (proj2 Ok f) as (t0 & G0 & _ & A0); [eapply defined_fragment; eauto|]. destruct (IH t0) as (x & Cx & Sx); [exists (fr_cond f); auto|exact A0|].
        exists x. split; [|exact Sx]. eapply col_spread; eauto.
    Qed.
    Lemma below_kept x y y' : srel x y -> below new d y y' -> exists x', below old d x x' /\ srel x' y'.
    Proof using Kp Un Ok Sh.
      intros (_ & _ & _ & Es & _ & Et & ft & Gf & A) (u & Gu & C). rewrite Et in Gu. rewrite <- Es in C.
      destruct (collected_kept _ _ _ C ft) as (x' & Cx & Sx); [eexists; eauto|exact A|]. exists x'. split; [exists ft; auto|exact Sx].
    Qed.
    Lemma srel_key x y : srel x y -> sf_key x = sf_key y.
    Proof using Type. intros (E1 & E2 & _). unfold sf_key. now rewrite E1, E2. Qed.
    Lemma merged_kept x y x' y' a b : srel x x' -> srel y y' -> merged new d x' y' a b -> exists a0 b0, merged old d x y a0 b0 /\ srel a0 a /\ srel b0 b.
    Proof using Kp Un Ok Sh.
      intros Sx Sy (Ba & Bb & E).
      assert (X : forall c, below new d x' c \/ below new d y' c -> exists c0, (below old d x c0 \/ below old d y c0) /\ srel c0 c).
      { intros c [B|B]; [destruct (below_kept _ _ _ Sx B) as (c0 & B0 & S0)|destruct (below_kept _ _ _ Sy B) as (c0 & B0 & S0)]; exists c0; auto. }
      destruct (X a Ba) as (a0 & A0 & Sa). destruct (X b Bb) as (b0 & B0 & Sb). exists a0, b0. split; [|auto].
      split; [exact A0|split; [exact B0|]]. now rewrite (srel_key _ _ Sa), (srel_key _ _ Sb).
    Qed.
    Lemma leaf_kept n t : get_type old n = Some t -> leaf_name old n <-> leaf_name new n.
    Proof using Kp Un.
      intros G. destruct (type_kept n t G) as (u & Gu & K). pose proof (kt_leaf _ _ K) as L. unfold leaf_name. rewrite G, Gu. split; intros (x & E & H); inversion E; subst; eexists; split; eauto; tauto.
    Qed.
    Lemma shape_kept a b : same_shape_type old a b -> (exists t, get_type old (tref_base a) = Some t) -> (exists t, get_type old (tref_base b) = Some t) ->
      same_shape_type new a b.
    Proof using Kp Un.
      induction 1 as [n r L|n n' r L L'|a b r H IH]; cbn [tref_base]; intros (t & G) (t' & G').
      - apply ss_leaf. now rewrite <- (leaf_kept n t G).
      - apply ss_composite; [now rewrite <- (leaf_kept n t G)|now rewrite <- (leaf_kept n' t' G')].
      - apply ss_list. eauto.
    Qed.
    Lemma shapes_kept x' y' : shapes_conflict new d x' y' -> forall x y, srel x x' -> srel y y' -> shapes_conflict old d x y.
    Proof using Kp Un Ok Sh.
      induction 1 as [x' y' N|x' y' a b M C IH]; intros x y Sx Sy.
      - apply sc_type. intros H. apply N. destruct Sx as (_ & _ & _ & _ & _ & Ex & fx & Gx & _), Sy as (_ & _ & _ & _ & _ & Ey & fy & Gy & _).
        rewrite Ex, Ey. apply shape_kept; eauto.
      - destruct (merged_kept _ _ _ _ _ _ Sx Sy M) as (a0 & b0 & M0 & Sa & Sb). eapply sc_below; eauto.
    Qed.
    Lemma meet_kept x y x' y' : srel x x' -> srel y y' -> can_meet x' y' -> can_meet x y.
    Proof using Kp Un.
      intros (_ & _ & _ & _ & Rx & _) (_ & _ & _ & _ & Ry & _). unfold can_meet. pose proof (rel_kept _ _ Rx) as Kx. pose proof (rel_kept _ _ Ry) as Ky.
      rewrite (kt_name _ _ Kx), (kt_name _ _ Ky), (kt_is_object _ _ Kx), (kt_is_object _ _ Ky). auto.
    Qed.
    Lemma selections_kept x' y' : selections_conflict new d can_meet x' y' -> forall x y, srel x x' -> srel y y' -> selections_conflict old d can_meet x y.
    Proof using Kp Un Ok Sh.
      induction 1 as [x' y' M N|x' y' M N|x' y' a b M Mg C IH]; intros x y Sx Sy; pose proof (meet_kept _ _ _ _ Sx Sy M) as M0.
      - apply fc_name; auto. destruct Sx as (_ & -> & _), Sy as (_ & -> & _). exact N.
      - apply fc_args; auto. destruct Sx as (_ & _ & -> & _), Sy as (_ & _ & -> & _). exact N.
      - destruct (merged_kept _ _ _ _ _ _ Sx Sy Mg) as (a0 & b0 & Mg0 & Sa & Sb). eapply fc_below; eauto.
    Qed.
    Lemma merge_kept : document_can_merge old d can_meet -> document_can_merge new d can_meet.
    Proof using Kp Un Ok Sh.
      intros H r u sels Hs x' y' Cx Cy E. destruct (set_kept _ _ _ Hs) as (t & Ht & R & A).
      destruct (collected_kept _ _ _ Cx t R A) as (x & Cx0 & Sx). destruct (collected_kept _ _ _ Cy t R A) as (y & Cy0 & Sy).
      destruct (H r t sels Ht x y Cx0 Cy0) as (H1 & H2); [now rewrite (srel_key _ _ Sx), (srel_key _ _ Sy)|].
      split; intros C; [apply H1|apply H2]; [eapply shapes_kept|eapply selections_kept]; eauto.
    Qed.
  End Document.
End Keeps.

(** * Valid documents stay valid *)
Lemma valid_kept shapes old new : keeps shapes old new -> names_once new -> forall accepts str_enum one_of d,
  shapes \/ document_can_merge new d can_meet ->
  valid_document old accepts str_enum one_of d -> valid_document new accepts str_enum one_of d.
Proof.
  intros Kp Un accepts se oo d Sh [V1 V2 V3 V4 V5 V6 V7 V8 V9 V10 V11 V12 V13 V14 V15 V16 V17 V18 V19 V20 V21 V22 V23 V24].
  refine (Build_valid_document _ _ _ _ _ V1 V2 V3 _ _ _ _ _ V9 V10 V11 V12 _ _ _ _ _ _ _ V20 _ V22 V23 _).
  - eapply document_ok_kept; eauto.
  - destruct Sh as [Sh|Sh]; [|exact Sh]. eapply merge_kept; eauto.
  - intros w args defs A a Ha. destruct (args_kept _ _ _ Kp Un d V4 V17 _ _ _ A) as (w0 & defs0 & A0 & K). destruct (V6 _ _ _ A0 a Ha) as (i & Hi & Ei).
    destruct (kept_In _ _ _ K Hi) as (j & Hj & Ej & _). exists j. split; [exact Hj|congruence].
  - intros w args defs A. destruct (args_kept _ _ _ Kp Un d V4 V17 _ _ _ A) as (w0 & defs0 & A0 & K). eapply V7; eauto.
  - intros w args defs A i Hi R D. destruct (args_kept _ _ _ Kp Un d V4 V17 _ _ _ A) as (w0 & defs0 & A0 & K).
    destruct (kept_required _ _ _ K Hi R D) as (i0 & Hi0 & Ei & Ri & Di). rewrite <- Ei. eapply V8; eauto.
  - intros r u s c tc Hs Hc G. destruct (sel_kept _ _ _ Kp Un d V4 _ _ _ Hs) as (t & Ht & R & A).
    assert (X : exists tc0, get_type old c = Some tc0).
    { destruct Hc as [(n & ds & f & -> & D & <-)|(ds & sub & ->)].
      - destruct (proj2 V4 f) as (t0 & G0 & _); [eapply defined_fragment; eauto|eauto].
      - inversion A; subst; eauto. }
    destruct X as (tc0 & G0). destruct (V13 r t s c tc0 Ht Hc G0) as (m & P1 & P2). exists m. split; eapply possible_kept; eauto. exists c; auto.
  - intros r a j A. destruct (argument_kept _ _ _ Kp Un d V4 V17 V6 _ _ _ A) as (i & Ai & K). eapply conforms_kept; eauto. apply K.
  - intros a j A. destruct (const_argument_kept _ _ _ Kp Un d V4 V17 V6 _ _ A) as (i & Ai & K). eapply conforms_kept; eauto. apply K.
  - intros o v x Ho Hv E. eapply conforms_kept; eauto. apply compatible_refl.
  - intros x loc H. eapply directive_kept in H; eauto. destruct (V17 x loc H) as (dd & Hd & Ed). destruct (kp_directives _ _ _ Kp dd Hd) as (e & He & Ee & _). exists e. split; [exact He|congruence].
  - intros x loc e H G. eapply directive_kept in H; eauto. destruct (ddef_back _ _ _ Kp Un d V17 x loc e H G) as (dd & Gd & (_ & _ & L) & _). apply L. eapply V18; eauto.
  - intros ds H i j x y e Hi Hj E G R.
    assert (H' : (exists r loc, directives_at old d r ds loc) \/ const_directives_at d ds).
    { destruct H as [(r & loc & H)|H]; [left; exists r, loc; eapply directives_kept; eauto|now right]. }
    assert (X : exists loc, directive_at old d x loc).
    { apply nth_error_In in Hi. destruct H' as [(r & loc & H')|H']; eexists; [eapply dir_var; eauto|eapply dir_const; eauto]. }
    destruct X as (loc & X). destruct (ddef_back _ _ _ Kp Un d V17 x loc e X G) as (dd & Gd & (_ & Rp & _) & _).
    eapply V19; eauto. destruct (dd_repeatable dd); [|reflexivity]. rewrite Rp in R by reflexivity. discriminate.
  - intros o v Ho Hv. destruct (V21 o v Ho Hv) as (td & G & I). destruct (rel_get _ _ _ Kp Un _ _ G) as (u & Gu & R). exists u. split; [exact Gu|].
    rewrite <- (kt_is_input _ _ _ (rel_kept _ _ _ Kp Un _ _ R)). exact I.
  - intros i o r v t df Ho Hr Hv (a & j & A & L). destruct (argument_kept _ _ _ Kp Un d V4 V17 V6 _ _ _ A) as (k & Ak & Kt & Kd & Kn).
    eapply located_kept with (t := iv_type k) (df := iv_default k) in L; eauto. destruct L as (t0 & df0 & L & Ct & Dn).
    eapply usage_kept; [exact Ct|exact Dn|]. eapply V24; eauto; [eapply star_kept; eauto|]. exists a, k. auto.
Qed.

(** * Nothing breaking is found: everything is kept *)
Lemma common_or_only {A} (nm : A -> name) l l' x : In x l -> (exists y, In y l' /\ nm y = nm x) \/ only_in nm l l' x.
Proof.
  intros H. destruct (find (fun y => teqb (nm y) (nm x)) l') as [y|] eqn:F.
  - apply find_some in F as (F & E). apply teqb_eq in E. left. eauto.
  - right. split; [exact H|]. intros y Hy E. apply find_none with (x := y) in F; auto. cbn in F. rewrite E, teqb_refl in F. discriminate.
Qed.
Lemma safe_input_compatible a : forall b, change_safe_for_input a b = true -> compatible a b.
Proof.
  induction a as [n r|a IH r]; intros [m s|b s]; cbn; try discriminate; intros H; apply andb_true_iff in H as (Q & H).
  - apply teqb_eq in H as <-. constructor. intros ->. destruct r; [reflexivity|discriminate].
  - constructor; [|auto]. intros ->. destruct r; [reflexivity|discriminate].
Qed.
Lemma safe_field_base a : forall b, change_safe_for_field a b = true -> tref_base b = tref_base a.
Proof.
  induction a as [n r|a IH r]; intros [m s|b s]; cbn; try discriminate; intros H; apply andb_true_iff in H as (Q & H).
  - apply teqb_eq in H as <-. reflexivity.
  - auto.
Qed.
Lemma tref_same (a b : tref) : a = b \/ a <> b.
Proof. destruct (tref_eqb a b) eqn:E; [left; now apply tref_eqb_eq|right; intros Q; apply tref_eqb_eq in Q; congruence]. Qed.
Lemma non_null_dec o : has_non_null_value o \/ ~ has_non_null_value o.
Proof. destruct o as [v|]; [|right; intros (? & ? & _); discriminate]. destruct v; try (left; eexists; split; [reflexivity|discriminate]). right. intros (? & E & N). inversion E. congruence. Qed.
Lemma inputs_keep l l' :
  (forall a, ~ only_in iv_name l l' a) ->
  (forall b, only_in iv_name l' l b -> iv_required b = false) ->
  (forall a b, both iv_name l l' a b -> iv_type a <> iv_type b -> change_safe_for_input (iv_type a) (iv_type b) = true) ->
  (forall a b, both iv_name l l' a b -> default_changed (iv_default a) (iv_default b) = true -> ~ without_default a b) ->
  keeps_inputs l l'.
Proof.
  intros H1 H2 H3 H4. split.
  - intros a Ha. destruct (common_or_only iv_name l l' a Ha) as [(b & Hb & E)|O]; [|exfalso; eapply H1; eauto]. exists b. split; [exact Hb|split; [exact E|]].
    assert (B : both iv_name l l' a b) by (split; [exact Ha|split; auto]). split.
    + destruct (tref_same (iv_type a) (iv_type b)) as [<-|N]; [apply compatible_refl|]. apply safe_input_compatible. auto.
    + destruct (default_changed (iv_default a) (iv_default b)) eqn:D.
      * specialize (H4 a b B D). unfold without_default in H4. split.
        -- intros N E'. apply H4. auto.
        -- intros N. destruct (non_null_dec (iv_default b)) as [Y|Y]; [exact Y|]. exfalso. apply H4. auto.
      * unfold default_changed in D. destruct (iv_default a) as [v|], (iv_default b) as [w|]; try discriminate; [|split; auto].
        split; [discriminate|]. intros (v' & E' & N). inversion E'; subst v'. exists w. split; [reflexivity|].
        apply negb_false_iff in D. destruct v, w; cbn in D; try discriminate; congruence.
  - intros b Hb N. apply H2. split; auto.
Qed.

Section Safe.
  Variable shapes : Prop.
  Variables old new : schema.
  Hypothesis Fo : floats old.
  Hypothesis Fn : floats new.
  Hypothesis Un : names_once new.
  Hypothesis NU : nothing_unseen old new.
  Hypothesis UF : same_union_fields old new.
  Hypothesis Safe : forall c, In c (compare old new) -> breaking c = false /\ ~ loses_default c.
  Hypothesis Sh : shapes -> forall n f g, ~ In (FieldTypeChanged n f g) (compare old new).

  Lemma reported c : real old new c -> ~ overlooked old new c -> breaking c = false /\ ~ loses_default c.
  Proof using Fo Fn Un Safe. intros H N. apply Safe. destruct (c45_reported_partial old new c Fo Fn Un H); [contradiction|assumption]. Qed.

  Ltac seen := let H := fresh in intros H; inversion H.
  Lemma fields_keep t l l' : common_fields old new t l l' -> keeps_fields shapes l l'.
  Proof using Fo Fn Un Safe Sh.
    intros C f Hf. destruct (common_or_only fd_name l l' f Hf) as [(g & Hg & E)|O].
    2:{ assert (R : real old new (FieldRemoved f t)) by (eapply r_field_removed; eauto). apply reported in R as (R & _); [|seen].
        unfold breaking, criticality_of in R. destruct (existsb _ _); discriminate. }
    exists g. split; [exact Hg|split; [exact E|]]. assert (CF : common_field old new t f g) by (eapply cfd_intro; [exact C|split; auto]).
    destruct (common_field_in old new _ _ _ CF) as ((lf & FI & Hf') & (lg & FI' & Hg')).
    split; [|split].
    - destruct (tref_same (fd_type f) (fd_type g)) as [<-|N]; [reflexivity|].
      assert (R : real old new (FieldTypeChanged t f g)) by (eapply r_field_type; eauto). apply reported in R as (R & _); [|seen].
      unfold breaking, criticality_of in R. destruct (change_safe_for_field (fd_type f) (fd_type g)) eqn:Q; [|discriminate]. now apply safe_field_base.
    - intros s. destruct (tref_same (fd_type f) (fd_type g)) as [<-|N]; [reflexivity|]. exfalso. eapply (Sh s t f g).
      assert (R : real old new (FieldTypeChanged t f g)) by (eapply r_field_type; eauto). destruct (c45_reported_partial old new _ Fo Fn Un R) as [O|I]; [inversion O|exact I].
    - apply inputs_keep.
      + intros a O. assert (R : real old new (FieldArgumentRemoved t f a)) by (eapply r_arg_removed; eauto). apply reported in R as (R & _); [|seen]. discriminate.
      + intros a O. assert (R : real old new (FieldArgumentAdded t g a)) by (eapply r_arg_added; eauto). apply reported in R as (R & _); [|seen].
        unfold breaking, criticality_of in R. unfold iv_required. destruct (tref_required (iv_type a)), (iv_default a); cbn in *; congruence.
      + intros a b B N. assert (R : real old new (FieldArgumentTypeChanged t f a b)) by (eapply r_arg_type; eauto; split; eauto). apply reported in R as (R & _); [|seen].
        unfold breaking, criticality_of in R. destruct (change_safe_for_input (iv_type a) (iv_type b)); [reflexivity|discriminate].
      + intros a b B D. assert (CA : common_argument old new t f g a b) by (split; auto). destruct (common_argument_in old new _ _ _ _ _ CA) as (Ia & Ib).
        apply (defaults_iff old new Fo Fn a b Ia Ib) in D.
        assert (R : real old new (FieldArgumentDefaultValueChanged t f a b)) by (eapply r_arg_default; eauto). apply reported in R as (_ & R); [|seen]. exact R.
  Qed.
  Lemma common_type_kept t u : common_type old new t u -> keeps_type shapes t u.
  Proof using Fo Fn Un NU UF Safe Sh.
    intros C. assert (K : kind_of t = kind_of u).
    { assert (D : kind_of t = kind_of u \/ kind_of t <> kind_of u) by (destruct (kind_of t), (kind_of u); auto; right; discriminate).
      destruct D as [D|D]; [exact D|]. assert (R : real old new (TypeKindChanged t u)) by (now constructor). apply reported in R as (R & _); [discriminate|seen]. }
    pose proof (proj2 (proj2 C)) as E. destruct t as [x|a|a|a|a|a|a], u as [y|b|b|b|b|b|b]; cbn in K; try discriminate; cbn [td_name] in E.
    - assert (x = y) by (destruct x, y; try reflexivity; discriminate E). subst. constructor.
    - now constructor.
    - constructor; [exact E| |eapply fields_keep; constructor; exact C].
      intros n Hn. destruct (in_dec (list_eq_dec N.eq_dec) n (ob_ifaces b)) as [Y|Y]; [exact Y|]. exfalso.
      assert (R : real old new (ObjectInterfaceRemoval a n)) by (eapply r_interface_removed; eauto). apply reported in R as (R & _); [discriminate|seen].
    - constructor; [exact E| |intros O; eapply (nu_one_of _ _ NU); eauto]. apply inputs_keep.
      + intros f O. assert (R : real old new (InputFieldRemoved a f)) by (eapply r_input_removed; eauto). apply reported in R as (R & _); [|seen]. discriminate.
      + intros f O. assert (R : real old new (InputFieldAdded b f)) by (eapply r_input_added; eauto). apply reported in R as (R & _); [|seen].
        unfold breaking, criticality_of in R. unfold iv_required. destruct (tref_required (iv_type f)), (iv_default f); cbn in *; congruence.
      + intros f g B N. assert (R : real old new (InputFieldTypeChanged a f g)) by (eapply r_input_type; eauto; split; eauto). apply reported in R as (R & _); [|seen].
        unfold breaking, criticality_of in R. destruct (change_safe_for_input (iv_type f) (iv_type g)); [reflexivity|discriminate].
      + intros f g B D. assert (CA : common_input_field old new a b f g) by (split; auto). destruct (common_input_field_in old new _ _ _ _ CA) as (Ia & Ib).
        apply (defaults_iff old new Fo Fn f g Ia Ib) in D.
        assert (R : real old new (InputFieldDefaultValueChanged a f g)) by (eapply r_input_default; eauto). apply reported in R as (_ & R); [|seen]. exact R.
    - constructor; [exact E|]. intros v Hv. destruct (common_or_only ev_name _ (en_values b) v Hv) as [W|O]; [exact W|]. exfalso.
      assert (R : real old new (EnumValueRemoved a v)) by (eapply r_value_removed; eauto). apply reported in R as (R & _); [discriminate|seen].
    - constructor; [exact E| |left; now apply UF].
      intros n Hn. destruct (in_dec (list_eq_dec N.eq_dec) n (un_members b)) as [Y|Y]; [exact Y|]. exfalso.
      assert (R : real old new (UnionMemberRemoved b n)) by (eapply r_member_removed; eauto). apply reported in R as (R & _); [discriminate|seen].
    - constructor; [exact E|eapply fields_keep; constructor; exact C].
  Qed.
  Lemma common_ddef_kept d e : common_ddef old new d e -> keeps_directive d e.
  Proof using Fo Fn Un NU Safe.
    intros C. split; [|split].
    - apply inputs_keep.
      + intros a O. destruct (dd_args e) as [|x l] eqn:Ee.
        { rewrite (nu_all_arguments _ _ NU d e C Ee) in O. destruct O as ([] & _). }
        rewrite <- Ee in O. assert (R : real old new (DirectiveDefinitionArgumentRemoved e a)) by (eapply r_ddef_arg_removed; eauto).
        apply reported in R as (R & _); [discriminate|]. intros OV. inversion OV; subst. congruence.
      + intros a O. destruct (dd_args d) as [|x l] eqn:Ed; [eapply (nu_first_arguments _ _ NU); eauto; apply O|].
        rewrite <- Ed in O. assert (R : real old new (DirectiveDefinitionArgumentAdded e a)) by (eapply r_ddef_arg_added; eauto).
        destruct (c45_reported_partial old new _ Fo Fn Un R) as [OV|I].
        * inversion OV as [d' e' a' C' E' I'| | | | | | |]; subst. eapply (nu_first_arguments _ _ NU); eauto.
        * apply Safe in I as (I & _). unfold breaking, criticality_of in I. now destruct (iv_required a).
      + intros a b B N. assert (R : real old new (DirectiveDefinitionArgumentTypeChanged e a b)) by (eapply r_ddef_arg_type; eauto; split; eauto). apply reported in R as (R & _); [|seen].
        unfold breaking, criticality_of in R. destruct (change_safe_for_input (iv_type a) (iv_type b)); [reflexivity|discriminate].
      + intros a b B D. assert (CA : common_ddef_argument old new d e a b) by (split; auto). destruct (common_ddef_argument_in old new _ _ _ _ CA) as (Ia & Ib).
        apply (defaults_iff old new Fo Fn a b Ia Ib) in D.
        assert (R : real old new (DirectiveDefinitionArgumentDefaultValueChanged e a b)) by (eapply r_ddef_arg_default; eauto). apply reported in R as (_ & R); [|seen]. exact R.
    - apply (nu_repeatable _ _ NU d e C).
    - intros l Hl. assert (D : In l (dd_locs e) \/ ~ In l (dd_locs e)).
      { destruct (existsb (dloc_eqb l) (dd_locs e)) eqn:X; [left|right].
        - apply existsb_exists in X as (y & Hy & Ey). apply dloc_eqb_eq in Ey. now subst.
        - intros I. apply not_true_iff_false in X. apply X. apply existsb_exists. exists l. split; [exact I|]. now apply dloc_eqb_eq. }
      destruct D as [D|D]; [exact D|]. exfalso. assert (R : real old new (DirectiveDefinitionLocationRemoved e l)) by (eapply r_location_removed; eauto).
      apply reported in R as (R & _); [discriminate|seen].
  Qed.
  Lemma safe_keeps : keeps shapes old new.
  Proof using Fo Fn Un NU UF Safe Sh.
    split.
    - apply (nu_roots _ _ NU).
    - intros t Ht. destruct (common_or_only td_name _ (s_types new) t Ht) as [(u & Hu & E)|O].
      + exists u. split; [exact Hu|split; [exact E|]]. apply common_type_kept. split; auto.
      + assert (R : real old new (TypeRemoved t)) by (now constructor). apply reported in R as (R & _); [discriminate|seen].
    - intros d Hd. destruct (common_or_only dd_name _ (s_ddefs new) d Hd) as [(e & He & E)|O].
      + exists e. split; [exact He|split; [exact E|]]. apply common_ddef_kept. split; auto.
      + assert (R : real old new (DirectiveDefinitionRemoved d)) by (now constructor). apply reported in R as (R & _); [discriminate|seen].
  Qed.
End Safe.

(** * The fields of unions that are read *)
Lemma read_unions so dor recover other_digit parse_f64 st S u :
  read_schema_with so dor recover other_digit parse_f64 st = inl (inl S) -> In (DUnion u) (s_types S) -> un_fields u = [typename_field].
Proof.
  unfold read_schema_with, parse_schema_text. destruct (parse_sysdoc so dor _) as [d|] eqn:P; [|discriminate]. destruct (Resolve.resolve d) as [y|] eqn:E; [|discriminate].
  intros [= <-] I. apply parse_sysdoc_ok in P as (xs & _ & F & _ & ->). apply resolve_schema in E. apply (Permutation.Permutation_in _ (Permutation.Permutation_sym (so_types _ _ E))) in I.
  unfold completed, add_root_fields, insert_directives, insert_scalars, extend in I. cbn [df_types new_document] in I. apply in_map_iff in I as (t & Et & I).
  assert (T : t = DUnion u) by (destruct t; try (cbn in Et; discriminate); try exact Et; unfold with_root_fields in Et; destruct (_ || _) in Et; discriminate). subst t.
  rewrite !in_app_iff in I. destruct I as [[I|I]|I].
  - exfalso. revert I. vm_compute. intuition discriminate.
  - unfold sys_types in I. apply in_flat_map in I as (x & I & J). destruct x; cbn in J; try destruct J as [->|[]]; try destruct J. rewrite Forall_forall in F. apply F in I. apply I.
  - apply in_map_iff in I as (? & Q & _). discriminate Q.
Qed.
Lemma read_same_union_fields so dor recover other_digit parse_f64 recover' other_digit' parse_f64' st st' S S' :
  read_schema_with so dor recover other_digit parse_f64 st = inl (inl S) -> read_schema_with so dor recover' other_digit' parse_f64' st' = inl (inl S') ->
  same_union_fields S S'.
Proof. intros H H' a b (Ha & Hb & _). rewrite (read_unions _ _ _ _ _ _ _ _ H Ha), (read_unions _ _ _ _ _ _ _ _ H' Hb). reflexivity. Qed.
