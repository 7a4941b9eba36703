(** When a comparison finds no breaking change, the server of the new schema serves the clients of the old one. *)
From Verif Require Import Base Ast Maps Graph Json Doc DocSpec DocRulesSpec FragmentsSpec DocVariablesSpec DocProofs DocTypingProofs
  Typegen TypegenDe TypegenSpec TypegenResponses Compare CompareSpec CompareProofs CompareProps CompatSpec CompatProofs ResponsesKept.
Local Open Scope string_scope.
Local Open Scope list_scope.

Lemma compatible_refines S a b : compatible a b -> refines S a b.
Proof.
  induction 1 as [n r r' H|a b r r' H C IH]; constructor; auto; destruct r', r; cbn; auto; now apply H.
Qed.
Section Found.
  Variables old new : schema.
  Hypothesis Fo : floats old.
  Hypothesis Fn : floats new.
  Hypothesis Un : names_once new.
  Hypothesis RO : resolved old.
  Hypothesis Rs : same_roots old new.
  Hypothesis Ki : keeps_interfaces old new.
  Hypothesis Safe : forall c, In c (compare old new) -> breaking c = false.
  Lemma not_breaking c : real old new c -> ~ overlooked old new c -> breaking c = false.
  Proof using Fo Fn Un Safe. intros H N. apply Safe. destruct (c45_reported_partial old new c Fo Fn Un H); [contradiction|assumption]. Qed.
  Ltac seen := let H := fresh in intros H; inversion H.
  Lemma fields_later t l l' n f : common_fields old new t l l' -> get_field l n = Some f ->
    exists g, get_field l' n = Some g /\ refines new (fd_type g) (fd_type f).
  Proof using Fo Fn Un Safe.
    intros C Hf. apply get_field_Some in Hf as (Hf & E0). destruct (common_or_only fd_name l l' f Hf) as [(g & Hg & E)|O].
    2:{ assert (R : real old new (FieldRemoved f t)) by (eapply r_field_removed; eauto). apply not_breaking in R; [|seen].
        unfold breaking, criticality_of in R. destruct (existsb _ _); discriminate. }
    exists g. split.
    { rewrite <- E0, <- E. apply find_unique; auto. apply (once_fields _ Un). apply (common_fields_in _ _ _ _ _ C). }
    apply compatible_refines. assert (CF : common_field old new t f g) by (eapply cfd_intro; [exact C|split; auto]).
    destruct (tref_same (fd_type f) (fd_type g)) as [<-|N]; [apply compatible_refl|].
    assert (R : real old new (FieldTypeChanged t f g)) by (eapply r_field_type; eauto). apply not_breaking in R; [|seen].
    unfold breaking, criticality_of in R. destruct (change_safe_for_field (fd_type f) (fd_type g)) eqn:Q; [|discriminate]. now apply safe_field_compatible.
  Qed.
  Lemma common_type_later t u : common_type old new t u -> later new t u.
  Proof using Fo Fn Un Safe RO Ki.
    intros C. assert (K : kind_of t = kind_of u).
    { assert (D : kind_of t = kind_of u \/ kind_of t <> kind_of u) by (destruct (kind_of t), (kind_of u); auto; right; discriminate).
      destruct D as [D|D]; [exact D|]. assert (R : real old new (TypeKindChanged t u)) by (now constructor). apply not_breaking in R; [discriminate|seen]. }
    pose proof (proj2 (proj2 C)) as E. pose proof (proj1 (proj2 C)) as Iu.
    destruct t as [x|a|a|a|a|a|a], u as [y|b|b|b|b|b|b]; cbn in K; try discriminate; cbn [td_name] in E.
    - assert (x = y) by (destruct x, y; try reflexivity; discriminate E). subst. constructor.
    - now constructor.
    - constructor.
      + intros n Hn. destruct (in_dec (list_eq_dec N.eq_dec) n (ob_ifaces b)) as [Y|Y]; auto. exfalso.
        assert (R : real old new (ObjectInterfaceRemoval a n)) by (eapply r_interface_removed; eauto). apply not_breaking in R; [discriminate|seen].
      + intros n f Hf. eapply fields_later; [constructor; exact C|exact Hf].
    - now constructor.
    - constructor.
    - constructor. intros n Hn. destruct (in_dec (list_eq_dec N.eq_dec) n (un_members b)) as [Y|Y]; auto. exfalso.
      assert (R : real old new (UnionMemberRemoved b n)) by (eapply r_member_removed; eauto). apply not_breaking in R; [discriminate|seen].
    - constructor.
      + intros n Hn. eapply Ki; eauto. exact (proj1 C).
      + intros n f Hf. eapply fields_later; [constructor; exact C|exact Hf].
  Qed.
  Lemma found_serves : serves old new.
  Proof using Fo Fn Un Safe RO Rs Ki.
    split.
    - intros n t Ht. apply get_type_Some in Ht as (Ht & <-). destruct (common_or_only td_name _ (s_types new) t Ht) as [(u & Hu & E)|O].
      + exists u. split; [|apply common_type_later; split; auto]. rewrite <- E. apply find_unique; auto. now apply once_types.
      + exfalso. assert (R : real old new (TypeRemoved t)) by (now constructor). apply not_breaking in R; [discriminate|seen].
    - intros ty t u Rt Ru. unfold root_type in *. destruct ty.
      + rewrite (sr_query _ _ Rs) in Ru. apply get_type_Some in Rt as (_ & N), Ru as (_ & N'). congruence.
      + destruct Rt as (n & En & Rt), Ru as (m & Em & Ru). rewrite (sr_mutation _ _ Rs n En) in Em. injection Em as <-. apply get_type_Some in Rt as (_ & N), Ru as (_ & N'). congruence.
      + destruct Rt as (n & En & Rt), Ru as (m & Em & Ru). rewrite (sr_subscription _ _ Rs n En) in Em. injection Em as <-. apply get_type_Some in Rt as (_ & N), Ru as (_ & N'). congruence.
  Qed.
  (** enum values that the client does not know have been reported *)
  Lemma new_value_reported s : new_value old new s -> exists e v, In (EnumValueAdded e v) (compare old new) /\ ev_name v = s.
  Proof using Fo Fn Un.
    intros (n & x & y & Hx & Hy & Hs & Hns). apply in_map_iff in Hs as (v & <- & Hv). exists y, v. split; [|reflexivity].
    apply get_type_Some in Hx as (Hx & Ex), Hy as (Hy & Ey).
    assert (C : common_type old new (DEnum x) (DEnum y)) by (split; [exact Hx|split; [exact Hy|]]; congruence).
    destruct (common_or_only ev_name _ (en_values x) v Hv) as [(w & Hw & Ew)|O].
    - exfalso. apply Hns. rewrite <- Ew. now apply in_map.
    - assert (R : real old new (EnumValueAdded y v)) by (eapply r_value_added; eauto).
      destruct (c45_reported_partial old new _ Fo Fn Un R) as [H|H]; [inversion H|exact H].
  Qed.
End Found.
