(** Proofs about the messages of schema changes. *)
From Coq Require Import String Lia.
From Verif Require Import Base Ast Maps LexerSpec ValueEq ValueEqSpec ValueEqProofs ValueEqProps Printer DefParser Compare CompareSpec CompareProofs ChangeText ChangeTextSpec ChangeTextProofs.
Local Open Scope string_scope.
Local Open Scope list_scope.

(** ** The parts of a message between backquotes *)
Fixpoint ticks (p : text) : list text :=
  match p with
  | [] => [[]]
  | c :: p' => if N.eqb c 96 then [] :: ticks p' else match ticks p' with w :: ws => (c :: w) :: ws | [] => [[c]] end
  end.
Lemma ticks_one n : without 96 n -> ticks n = [n].
Proof. induction 1 as [|c n H _ IH]; [reflexivity|]. cbn. apply N.eqb_neq in H. now rewrite H, IH. Qed.
Lemma ticks_app n p : without 96 n -> ticks (n ++ 96%N :: p) = n :: ticks p.
Proof. induction 1 as [|c n H _ IH]; [reflexivity|]. cbn in *. apply N.eqb_neq in H. now rewrite H, IH. Qed.
Lemma ticks_q pre x s r : without 96 pre -> without 96 x -> ticks (pre ++ q x s ++ r) = pre :: x :: ticks (tx s ++ r).
Proof.
  intros H K. unfold q. cbn [app]. rewrite <- !app_assoc, ticks_app by assumption. f_equal. cbn [app]. now rewrite ticks_app.
Qed.
Lemma ticks_q' pre x s : without 96 pre -> without 96 x -> ticks (pre ++ q x s) = pre :: x :: ticks (tx s).
Proof. intros H K. rewrite <- (app_nil_r (q x s)), ticks_q by assumption. now rewrite app_nil_r. Qed.
(** when the first quoted part may contain backquotes *)
Lemma ticks_head pre x : without 96 pre -> exists l, ticks (pre ++ 96%N :: x) = pre :: l.
Proof. intros H. rewrite ticks_app by assumption. eauto. Qed.
Definition tickless (x : text) : bool := forallb (fun c => negb (N.eqb c 96)) x.
Lemma tickless_ok x : tickless x = true -> without 96 x.
Proof. unfold tickless, without. rewrite forallb_forall, Forall_forall. intros H c I E. subst c. now apply H in I. Qed.
Lemma without_app c x y : without c x -> without c y -> without c (x ++ y). Proof. intros H K. now apply Forall_app. Qed.
Lemma without_dot x y : without 96 x -> without 96 y -> without 96 (dot x y).
Proof. intros H K. apply without_app; auto. constructor; auto. discriminate. Qed.

(** a number for each kind of change; one for all changes of default values *)
Definition code (c : change) : nat :=
  match c with
  | TypeRemoved _ => 0 | TypeAdded _ => 1 | TypeKindChanged _ _ => 2 | TypeDescriptionChanged _ _ => 3 | FieldAdded _ _ => 4 | FieldRemoved _ _ => 5
  | FieldDescriptionChanged _ _ _ => 6 | FieldTypeChanged _ _ _ => 7 | FieldArgumentAdded _ _ _ => 8 | FieldArgumentRemoved _ _ _ => 9
  | FieldArgumentDescriptionChanged _ _ _ _ => 10 | FieldArgumentTypeChanged _ _ _ _ => 12
  | FieldArgumentDefaultValueChanged _ _ _ _ | InputFieldDefaultValueChanged _ _ _ | DirectiveDefinitionArgumentDefaultValueChanged _ _ _ => 11
  | ObjectInterfaceAddition _ _ => 13 | ObjectInterfaceRemoval _ _ => 14 | EnumValueAdded _ _ => 15 | EnumValueRemoved _ _ => 16
  | EnumValueDescriptionChanged _ _ _ => 17 | UnionMemberAdded _ _ => 18 | UnionMemberRemoved _ _ => 19 | InputFieldAdded _ _ => 20
  | InputFieldRemoved _ _ => 21 | InputFieldDescriptionChanged _ _ _ => 22 | InputFieldTypeChanged _ _ _ => 23
  | DirectiveDefinitionAdded _ => 24 | DirectiveDefinitionRemoved _ => 25 | DirectiveDefinitionLocationAdded _ _ => 26
  | DirectiveDefinitionLocationRemoved _ _ => 27 | DirectiveDefinitionDescriptionChanged _ _ => 28 | DirectiveDefinitionArgumentAdded _ _ => 29
  | DirectiveDefinitionArgumentRemoved _ _ => 30 | DirectiveDefinitionArgumentDescriptionChanged _ _ _ => 31
  | DirectiveDefinitionArgumentTypeChanged _ _ _ => 32
  | _ => 33
  end.
(** what comes before the first quoted part and after it *)
Definition table : list (nat * text * option text) := map (fun e => (fst (fst e), tx (snd (fst e)), match snd e with Some x => Some (tx x) | None => None end))
  [(0, "Type ", Some " was removed"); (1, "Type ", Some " was added"); (2, "", Some " kind changed from "); (3, "Description ", None);
   (4, "Field ", Some " was added to object type "); (5, "Field ", Some " was removed from object type ");
   (6, "Field ", Some " description changed from "); (7, "Field ", Some " changed type from ");
   (8, "Argument ", Some " was added to field "); (9, "Argument ", Some " was removed from field "); (10, "Description for argument ", Some " on field ");
   (11, "Default value for argument ", None); (11, "Default value ", None); (11, "Input field ", Some " default value changed from ");
   (11, "Directive argument ", None); (12, "Type for argument ", Some " on field "); (13, "", Some " object implements ");
   (14, "", Some " object type no longer implements "); (15, "Enum value ", Some " was added to enum "); (16, "Enum value ", Some " was removed from enum ");
   (17, "Description for enum value ", None); (18, "Union member ", Some " was added to union type "); (19, "Union member ", Some " was removed from union type ");
   (20, "Input field ", Some " was added to input object type "); (21, "Input field ", Some " was removed from input object type ");
   (22, "Input field ", Some " description changed from "); (23, "Input field ", Some " changed type from ");
   (24, "Directive ", Some " was added"); (25, "Directive ", Some " was removed"); (26, "Location ", Some " was added to directive ");
   (27, "Location ", Some " was removed from directive "); (28, "Directive ", Some " description changed from ");
   (29, "Argument ", Some " was added to directive "); (30, "Argument ", Some " was removed from directive ");
   (31, "Description for argument ", Some " on directive "); (32, "Type for argument ", Some " on directive ")]%nat.
Definition read_code (m : text) : option nat :=
  match ticks m with
  | pre :: rest => match find (fun e => teqb (snd (fst e)) pre && match snd e with Some x => teqb x (nth 1 rest []) | None => true end) table with
                   | Some e => Some (fst (fst e)) | None => None end
  | [] => None
  end.
Lemma q_cons x s : q x s = 96%N :: x ++ 96%N :: tx s. Proof. reflexivity. Qed.

Section Messages.
  Variable print_float : N -> text.
  Notation message_of := (message_of print_float).
  Variables old new : schema.
  Hypothesis Go : graphql_names old.
  Hypothesis Gn : graphql_names new.
  Hypothesis Fo : floats old.
  Hypothesis Fn : floats new.

  Lemma loc_tick l : without 96 (dloc_text l). Proof using Type. apply tickless_ok. now destruct l. Qed.
  Definition plain (x : item) : Prop :=
    match x with
    | IType t => without 96 (td_name t) | IField t f => without 96 (td_name t) /\ without 96 (fd_name f)
    | IArgument t f a => without 96 (td_name t) /\ without 96 (fd_name f) /\ without 96 (iv_name a)
    | IEnumValue d v => without 96 (en_name d) /\ without 96 (ev_name v) | IInputField d f => without 96 (io_name d) /\ without 96 (iv_name f)
    | IDirective d => without 96 (dd_name d) | IDirectiveArgument d a => without 96 (dd_name d) /\ without 96 (iv_name a)
    end.
  Lemma leads_plain s p x : graphql_names s -> leads s p x -> plain x.
  Proof using Type.
    intros G [t H|t f H|t f a H I|d v H I|d f H I|d H|d a H I]; cbn; repeat split;
      try (apply has_field_in in H as (H & l & F & J)); apply name_tick;
      first [now apply (gn_types s G)|now apply (gn_ddefs s G)|now apply (gn_types s G (DEnum d))|now apply (gn_types s G (DInput d))
            |now apply (gn_fields s G l)|now apply (gn_enum_values s G d)|idtac].
    - eapply (gn_inputs s G); [eapply ii_field; eauto|exact I].
    - eapply (gn_inputs s G); [eapply ii_object; eauto|exact I].
    - eapply (gn_inputs s G); [eapply ii_directive; eauto|exact I].
  Qed.
  Lemma happens_plain p e : happens old new p e -> match e with Adds x | Removes x => plain x | Replaces x y => plain x /\ plain y end.
  Proof using Go Gn. destruct e; cbn; intros (H & K); eauto using leads_plain. Qed.

  Lemma read_q n pre x s r : without 96 x -> tickless (tx pre) = true -> tickless (tx s) = true -> r = [] \/ (exists y, r = 96%N :: y) ->
    find (fun e => teqb (snd (fst e)) (tx pre) && match snd e with Some m => teqb m (tx s) | None => true end) table = Some n ->
    read_code (tx pre ++ q x s ++ r) = Some (fst (fst n)).
  Proof using Type.
    intros Hx Hp Hs Hr F. unfold read_code. rewrite ticks_q by (auto using tickless_ok).
    assert (E : nth 1 (x :: ticks (tx s ++ r)) [] = tx s).
    { destruct Hr as [->|(y & ->)]; cbn; [rewrite app_nil_r, ticks_one|rewrite ticks_app]; auto using tickless_ok. }
    rewrite E, F. reflexivity.
  Qed.
  Lemma read_head n pre x : tickless (tx pre) = true ->
    (forall m, find (fun e => teqb (snd (fst e)) (tx pre) && match snd e with Some x => teqb x m | None => true end) table = Some n) ->
    read_code (tx pre ++ 96%N :: x) = Some (fst (fst n)).
  Proof using Type. intros Hp F. unfold read_code. rewrite ticks_app by now apply tickless_ok. now rewrite F. Qed.
  Lemma default_shown v w : f64s v -> f64s w -> ~ same_value v w -> value_eqb v w = false.
  Proof using Type. intros Hv Hw H. apply not_true_iff_false. now rewrite value_eqb_same. Qed.
  (** the floats of the default values *)
  Definition defaults_ok (c : change) : Prop :=
    match c with
    | FieldArgumentDefaultValueChanged _ _ a b | InputFieldDefaultValueChanged _ a b | DirectiveDefinitionArgumentDefaultValueChanged _ a b =>
        forall v w, iv_default a = Some v -> iv_default b = Some w -> value_eqb v w = false
    | _ => True
    end.
  Lemma real_defaults c : real old new c -> defaults_ok c.
  Proof using Fo Fn.
    intros R. destruct R; try exact I; cbn; intros v w E F; rewrite E, F in *; cbn in *; apply default_shown; auto.
    all: try apply common_argument_in in H as ((l & L & J) & (l' & L' & J')); try apply common_input_field_in in H as ((l & L & J) & (l' & L' & J'));
      try apply common_ddef_argument_in in H as ((l & L & J) & (l' & L' & J')).
    all: try (apply Fo; now eapply vi_default; eauto). all: apply Fn; now eapply vi_default; eauto.
  Qed.
  Ltac rq := repeat rewrite app_nil_r; first
    [ eapply (read_q (_, _, _)); [|reflexivity|reflexivity|right; eexists; reflexivity|vm_compute; reflexivity]
    | rewrite <- (app_nil_r (q _ _)); eapply (read_q (_, _, _)); [|reflexivity|reflexivity|left; reflexivity|vm_compute; reflexivity]].
  (** the names of interfaces and members *)
  Definition extra_plain (c : change) : Prop :=
    match c with
    | ObjectInterfaceAddition _ m | ObjectInterfaceRemoval _ m | UnionMemberAdded _ m | UnionMemberRemoved _ m => without 96 m
    | _ => True
    end.
  Lemma real_extra c : real old new c -> extra_plain c.
  Proof using Go Gn.
    intros R. destruct R; try exact I; cbn; destruct H as (H & K & _); apply name_tick.
    - eapply (gn_ifaces new Gn); eauto.
    - eapply (gn_ifaces old Go); eauto.
    - eapply (gn_members new Gn); eauto.
    - eapply (gn_members old Go); eauto.
  Qed.
  Ltac rh := match goal with |- read_code (tx ?p ++ ?r) = Some ?n =>
    refine (read_head (n, tx p, None) p _ _ _); [reflexivity|intros; vm_compute; reflexivity] end.
  Lemma code_read c e : effect_of c e -> happens old new (path_of c) e -> defaults_ok c -> extra_plain c -> read_code (message_of c) = Some (code c).
  Proof using Go Gn.
    intros E H D X. apply happens_plain in H. destruct E; cbn [message_of code plain extra_plain defaults_ok] in *.
    all: try (rq; first [exact X|tauto]).
    all: try rh.
    all: try match goal with |- read_code (q ?x ?s ++ _) = _ => change (q x s) with (tx "" ++ q x s); rewrite <- app_assoc; rq; tauto end.
    all: try (rq; apply without_app; [tauto|constructor; [discriminate|]; tauto]).
    - destruct (iv_default a) as [v|], (iv_default b) as [w|]; try rh; [|contradiction]. rewrite (D v w) by reflexivity. rh.
    - destruct (iv_default f) as [v|], (iv_default g) as [w|]; try rh; [|contradiction]. rewrite (D v w) by reflexivity.
      rq; apply without_dot; tauto.
    - rq. apply loc_tick.
    - rq. apply loc_tick.
    - destruct (iv_default a) as [v|], (iv_default b) as [w|]; try rh; [|contradiction]. rewrite (D v w) by reflexivity. rh.
  Qed.

  Hypothesis Uo : names_once old.
  Hypothesis Un : names_once new.
  Lemma happens_same p e e' : happens old new p e -> happens old new p e' -> e = e'.
  Proof using Go Gn Uo Un.
    destruct e as [x|x|x x'], e' as [y|y|y y']; cbn; intros (H & K) (H' & K'); try (exfalso; first [now apply (K _ H')|now apply (K' _ H)|now apply (K _ K')|now apply (K' _ K)|eapply K; eassumption|eapply K'; eassumption]);
      f_equal; eauto using (leads_functional old Go Uo), (leads_functional new Gn Un).
  Qed.
  Lemma dloc_text_inj l l' : dloc_text l = dloc_text l' -> l = l'.
  Proof using Type. destruct l, l'; intros H; first [reflexivity|discriminate H]. Qed.
  Lemma ticks_eq pre x y s t r r' : tickless (tx pre) = true -> without 96 x -> without 96 y -> tx pre ++ q x s ++ r = tx pre ++ q y t ++ r' -> x = y.
  Proof using Type.
    intros H Hx Hy E. apply app_inv_head in E. unfold q in E. injection E as E. cbn in E. rewrite <- !app_assoc in E. cbn in E.
    now apply tick_split in E as (E & _).
  Qed.
  Lemma identified c c' : real old new c -> real old new c' -> ~ to_applied_directives c -> ~ to_applied_directives c' ->
    path_of c = path_of c' -> message_of c = message_of c' -> c = c'.
  Proof using All.
    intros R R' A A' P M.
    destruct (real_happens old new Go Gn Uo Un c R A) as (e & E & H). destruct (real_happens old new Go Gn Uo Un c' R' A') as (e' & E' & H').
    assert (C : code c = code c').
    { assert (C1 := code_read c e E H (real_defaults c R) (real_extra c R)).
      assert (C2 := code_read c' e' E' H' (real_defaults c' R') (real_extra c' R')). rewrite M in C1. congruence. }
    rewrite <- P in H'. assert (X := real_extra c R). assert (X' := real_extra c' R').
    assert (Q := happens_same _ _ _ H H'). subst e'. clear H H' A A' P.
    destruct E; inversion E'; subst; try discriminate C; try reflexivity; cbn [message_of extra_plain] in *; f_equal; try congruence.
    - apply app_inv_head in M. unfold q in M. injection M as M. now apply tick_split in M.
    - apply app_inv_head in M. unfold q in M. injection M as M. now apply tick_split in M.
    - now apply ticks_eq in M.
    - now apply ticks_eq in M.
    - apply ticks_eq in M; try apply loc_tick; [|reflexivity]. now apply dloc_text_inj.
    - apply ticks_eq in M; try apply loc_tick; [|reflexivity]. now apply dloc_text_inj.
    - assert (Z : forall d a, real old new (DirectiveDefinitionArgumentRemoved d a) -> In d (s_ddefs new)).
      { intros d' a' Z. inversion Z as [| | | | | | | | | | | | | | | | | | | | | | | | | | | | | | |? ? ? W| | | | | | | |]. apply W. }
      apply Z in R. apply Z in R'.
      apply (ddef_unique new Un); auto. congruence.
  Qed.

  (** ** The message names what is at the path *)
  Lemma contains_q pre x s r l : contains r l -> contains (pre ++ q x s ++ r) (quoted x :: l).
  Proof using Type.
    intros H. replace (pre ++ q x s ++ r) with (pre ++ quoted x ++ (tx s ++ r)).
    - constructor. destruct l as [|p l]; [constructor|]. inversion H as [|a p' m l' H']; subst. rewrite app_assoc. now constructor.
    - unfold q, quoted. cbn. rewrite <- !app_assoc. reflexivity.
  Qed.
  Lemma contains_q' pre x s : contains (pre ++ q x s) [quoted x].
  Proof using Type. rewrite <- (app_nil_r (q x s)). apply contains_q. constructor. Qed.
  Lemma contains_skip pre r l : contains r l -> contains (pre ++ r) l.
  Proof using Type. intros H. destruct l as [|p l]; [constructor|]. inversion H as [|a p' m l' H']; subst. rewrite app_assoc. now constructor. Qed.
  Lemma contains_start x s r : contains (q x s ++ r) [quoted x].
  Proof using Type. exact (contains_q [] x s r [] (co_nil r)). Qed.
  Lemma contains_end x s : contains (q x s) [quoted x].
  Proof using Type. exact (contains_q' [] x s). Qed.
  Definition argument_named (c : change) : Prop :=
    match c with FieldArgumentDescriptionChanged _ _ _ _ | FieldArgumentTypeChanged _ _ _ _ => False | _ => True end.
  Lemma np_dot m t f : contains m [quoted (dot t f)] -> names_path m (dotted [t; f]).
  Proof using Type. intros H. rewrite path2. now apply np_whole. Qed.
  Lemma np_2 m t f : contains m [quoted f; quoted t] -> names_path m (dotted [t; f]).
  Proof using Type. intros H. rewrite path2. now apply np_parts. Qed.
  Lemma np_3 m t f a : contains m [quoted a; quoted (dot t f)] -> names_path m (dotted [t; f; a]).
  Proof using Type.
    intros H. rewrite path3. replace (t ++ tx "." ++ f ++ tx "." ++ a) with (dot t f ++ tx "." ++ a) by (unfold dot; now rewrite <- app_assoc).
    now apply np_parts.
  Qed.
  Lemma np_at m p : names_path m p -> names_path m (64%N :: p).
  Proof using Type. apply np_directive. Qed.
  Ltac have := first [apply contains_q; have|apply contains_q'|apply contains_end|apply contains_start|apply contains_skip; have|constructor].
  Ltac named := first [apply np_whole; solve [have]|apply np_3; solve [have]|apply np_2; solve [have]|apply np_dot; solve [have]].
  Lemma message_names c : real old new c -> argument_named c -> names_path (message_of c) (path_of c).
  Proof using Fo Fn.
    intros R A. assert (D := real_defaults c R).
    destruct R; try contradiction A; cbn [message_of path_of defaults_ok] in *; try (apply np_at); try named.
    all: match goal with H : both _ _ _ _ _ |- _ => destruct H as (_ & _ & N) | H : common_argument _ _ _ _ _ _ _ |- _ => destruct H as (_ & _ & _ & N)
      | H : common_enum_value _ _ _ _ _ _ |- _ => destruct H as (_ & _ & _ & N) | H : common_input_field _ _ _ _ _ _ |- _ => destruct H as (_ & _ & _ & N)
      | H : common_ddef_argument _ _ _ _ _ _ |- _ => destruct H as (_ & _ & _ & N) | H : common_ddef _ _ _ _ |- _ => destruct H as (_ & _ & N) end.
    all: rewrite ?N; try named.
    all: rewrite <- ?N; match goal with H : default_differs ?x ?y |- _ => destruct x as [v|], y as [w|]; [rewrite (D v w) by reflexivity| | |contradiction] end; 
      rewrite ?N; try named; rewrite <- ?N; named.
  Qed.
  Lemma contains_weaken pre s x r l : contains r l -> contains (pre ++ q x s ++ r) l.
  Proof using Type. intros H. now repeat apply contains_skip. Qed.
  Lemma kind_word_of t : type_kind t = kind_word (kind_of t). Proof using Type. now destruct t. Qed.
  Ltac tell := first [apply contains_q; tell|apply contains_q'|apply contains_end|apply (contains_q []); tell|apply contains_start|constructor|apply contains_skip; tell].
  Lemma message_details c : real old new c -> contains (message_of c) (map quoted (details c)).
  Proof using Type.
    intros R. destruct R; cbn [message_of details map]; try constructor; rewrite <- ?kind_word_of.
    all: try solve [tell].
  Qed.
  Lemma message_default_details c : real old new c -> contains (message_of c) (map quoted (default_details (print_value print_float) c)).
  Proof using Fo Fn.
    intros R. assert (D := real_defaults c R). destruct R; cbn [message_of default_details map defaults_ok] in *; try constructor;
      match goal with H : default_differs ?x ?y |- _ => destruct x as [v|], y as [w|]; [rewrite (D v w) by reflexivity| | |contradiction] end; cbn [map]; tell.
  Qed.
End Messages.
