(** Property theorems on cycles (C20, C21). *)
From Verif Require Import Base Ast Graph Coercion CoercionSpec InputCycles InputCyclesSpec InputCyclesProofs
                          FragmentCycles FragmentsSpec FragmentCyclesProofs.
From Coq Require Import Sorted.

(** C20. The rule reports an input object type exactly when it requires itself. *)
Theorem input_cycles_detected_exactly :
  forall (S : schema) (n : name),
    NoDup (map td_name (s_types S)) ->
    ((exists refs, In (n, refs) (circular_reference_errors S)) <-> requires_itself S n).
Proof. exact circular_reference_errors_iff. Qed.
Print Assumptions input_cycles_detected_exactly.

(** C20, the check of one type terminates (the fuel always suffices), and the references listed are to the type. *)
Theorem input_cycle_check_complete :
  forall (S : schema) (d : input_def),
    get_type S (io_name d) = Some (DInput d) ->
    (requires_itself S (io_name d) <->
       exists refs, input_object_error S d = Some (Some refs) /\ refs <> [] /\
                    forall t, In t refs -> t = TBase (io_name d) true) /\
    (~ requires_itself S (io_name d) <-> input_object_error S d = Some None).
Proof. intros S d H. exact (input_object_error_spec S (io_name d) d H eq_refl). Qed.
Print Assumptions input_cycle_check_complete.

(** C20, the reason for the rule: if the fields on the cycle have no default value, no value without variables at the
    offending places can conform to the reported type. *)
Definition requires_without_default (S : schema) (a b : name) : Prop :=
  exists da f db, get_type S a = Some (DInput da) /\ In f (io_fields da) /\ iv_default f = None /\
                  iv_type f = TBase b true /\ get_type S b = Some (DInput db).
Fixpoint variable_free (v : value) : Prop :=
  match v with
  | VVar _ => False
  | VList vs => (fix go l := match l with [] => True | x :: l' => variable_free x /\ go l' end) vs
  | VObj es => (fix go l := match l with [] => True | kv :: l' => variable_free (snd kv) /\ go l' end) es
  | _ => True
  end.
Lemma variable_free_entry es k v : variable_free (VObj es) -> In (k, v) es -> variable_free v.
Proof.
  cbn. induction es as [|[k' v'] es IH]; [intros _ []|]. intros [H1 H2] [[= -> ->]|Hin]; auto.
Qed.
Theorem required_cycle_has_no_value :
  forall accepts str_enum one_of (S : schema) (n : name),
    plus (requires_without_default S) n n ->
    forall v, variable_free v -> ~ conforms accepts str_enum one_of S (TBase n true) v.
Proof.
  intros acc se oo S n Hc.
  assert (Hall : forall v x, (exists t, star (requires_without_default S) x t /\ plus (requires_without_default S) t t) ->
            variable_free v -> ~ conforms acc se oo S (TBase x true) v).
  { induction v as [y|z|b|s|b| |e|vs IH|es IH] using value_ind'; intros x Hx Hvf Hconf.
    all: assert (Hnext : exists y, requires_without_default S x y /\
           exists t, star (requires_without_default S) y t /\ plus (requires_without_default S) t t).
    1,3,5,7,9,11,13,15,17: destruct Hx as (t & Hs & Hp); inversion Hs; subst;
      [ apply plus_inv_star in Hp as Hp'; destruct Hp' as (y' & H1 & H2); exists y'; split; auto; exists t; auto
      | eexists; split; [eassumption|]; exists t; auto ].
    all: destruct Hnext as (y' & (da & f & db & G1 & G2 & G3 & G4 & G5) & Hy).
    all: inversion Hconf; subst; try congruence; try discriminate.
    - destruct Hvf.
    - match goal with H : get_type S x = Some (DInput ?d0) |- _ => rewrite G1 in H; injection H as <- end.
      match goal with H : forall i, In i (io_fields da) -> tref_required _ = true -> _ |- _ =>
        destruct (H f G2) as (v' & Hin); [rewrite G4; reflexivity|assumption|] end.
      rewrite Forall_forall in IH. apply (IH (iv_name f, v') Hin y' Hy).
      + eapply variable_free_entry; eauto.
      + rewrite <- G4. auto. }
  intros v. apply Hall. exists n. split; [constructor|auto].
Qed.
Print Assumptions required_cycle_has_no_value.

Definition cyc_ivd (n : string) (t : tref) : ivd :=
  {| iv_name := tx n; iv_desc := None; iv_type := t; iv_default := None; iv_dirs := [] |}.
Definition cyc_input (n : string) (fs : list ivd) : tdef :=
  DInput {| io_name := tx n; io_desc := None; io_dirs := []; io_fields := fs |}.
Definition cyc_schema : schema :=
  {| s_desc := None;
     s_types := [cyc_input "A" [cyc_ivd "b" (TBase (tx "B") true)];
                 cyc_input "B" [cyc_ivd "c" (TBase (tx "C") true); cyc_ivd "l" (TList (TBase (tx "D") true) true)];
                 cyc_input "C" [cyc_ivd "b" (TBase (tx "B") true)];
                 cyc_input "D" [cyc_ivd "d" (TBase (tx "D") false)]];
     s_ddefs := []; s_query := tx "Query"; s_mutation := None; s_subscription := None; s_dirs := [] |}.
(** B and C form a cycle; A leads into it but is not on it; D refers to itself only through a nullable field *)
Example cycles_ex : map fst (circular_reference_errors cyc_schema) = [tx "B"; tx "C"].
Proof. vm_compute. reflexivity. Qed.
Example cycles_ex_nodup : NoDup (map td_name (s_types cyc_schema)).
Proof. cbn. repeat constructor; cbn; intuition discriminate. Qed.
Example no_value_ex : plus (requires_without_default cyc_schema) (tx "B") (tx "B").
Proof.
  eapply plus_step with (b := tx "C"); [|constructor].
  - do 3 eexists. split; [reflexivity|]. split; [left; reflexivity|]. repeat split; reflexivity.
  - do 3 eexists. split; [reflexivity|]. split; [left; reflexivity|]. repeat split; reflexivity.
Qed.

(** C21. The rule always answers; it reports exactly the fragments that reach themselves through spreads at any depth,
    each once, in name order. *)
Theorem fragment_cycles_detected_exactly :
  forall (d : document), exists errs,
    fragment_cycle_errors d = Some errs /\
    (forall f, In f errs <-> defines d (fr_name f) f /\ on_a_cycle d (fr_name f)) /\
    StronglySorted tlt (map fr_name errs).
Proof. exact fragment_cycle_errors_spec. Qed.
Print Assumptions fragment_cycles_detected_exactly.

Definition fr (n : string) (sel : list selection) : fragment :=
  {| fr_name := tx n; fr_cond := tx "Query"; fr_dirs := []; fr_sel := sel |}.
Example fragment_cycles_ex :
  let a := fr "A" [SField None (tx "x") [] [] [SInline None [] [SSpread (tx "B") []]]] in
  let b := fr "B" [SSpread (tx "C") []; SSpread (tx "missing") []] in
  let c := fr "C" [SField None (tx "y") [] [] [SSpread (tx "B") []]] in
  fragment_cycle_errors {| doc_ops := []; doc_frags := [c; a; b] |} = Some [b; c].
Proof. vm_compute. reflexivity. Qed.
