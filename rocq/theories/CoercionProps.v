(** Property theorems on input coercion (C16, C17, C18). *)
From Verif Require Import Base Ast Coercion CoercionSpec CoercionProofs CoercionErrors.

(** A small schema for the examples: scalars, an enum, a recursive input object and a oneOf input object. *)
Definition ex_ivd (n : string) (t : tref) (d : option value) : ivd :=
  {| iv_name := tx n; iv_desc := None; iv_type := t; iv_default := d; iv_dirs := [] |}.
Definition ex_schema : schema :=
  {| s_desc := None;
     s_types := [DBuiltin BInt; DBuiltin BString;
       DEnum {| en_name := tx "Color"; en_desc := None; en_dirs := []; en_builtin := false;
                en_values := [{| ev_name := tx "RED"; ev_desc := None; ev_dirs := [] |}] |};
       DInput {| io_name := tx "Filter"; io_desc := None; io_dirs := [];
                 io_fields := [ex_ivd "color" (TBase (tx "Color") true) None;
                               ex_ivd "limit" (TBase (tx "Int") true) (Some (VInt 10));
                               ex_ivd "and" (TList (TBase (tx "Filter") true) false) None] |};
       DInput {| io_name := tx "By"; io_desc := None;
                 io_dirs := [{| dir_name := tx "oneOf"; dir_args := [] |}];
                 io_fields := [ex_ivd "id" (TBase (tx "Int") false) None;
                               ex_ivd "name" (TBase (tx "String") false) None] |}];
     s_ddefs := []; s_query := tx "Query"; s_mutation := None; s_subscription := None; s_dirs := [] |}.
Definition no_hook : name -> value -> option text := fun _ _ => None.

(** C16. No errors exactly for the conforming values, whatever the starting path. *)
Theorem coerce_accepts_exactly_conforming :
  forall (hook : name -> value -> option text) (str_enum one_of : bool) (S : schema) (t : tref) (v : value) (p : path),
    coerce_value hook str_enum one_of S t v p = [] <->
    conforms (fun n x => hook n x = None) str_enum one_of S t v.
Proof.
  intros. unfold coerce_value. rewrite coerce_iff. split; [tauto|]. intros H; split; [exact H|discriminate].
Qed.
Print Assumptions coerce_accepts_exactly_conforming.

(** nested, promoted to a list, defaulted: accepted; and values with a missing field or inside a list: rejected *)
Example coerce_accepts_ex :
  coerce_value no_hook false true ex_schema (TList (TBase (tx "Filter") true) true)
    (VObj [(tx "and", VObj [(tx "color", VEnum (tx "RED"))]); (tx "color", VVar (tx "c"))]) [] = [].
Proof. vm_compute. reflexivity. Qed.
Example coerce_rejects_ex :
  coerce_value no_hook false true ex_schema (TBase (tx "Filter") false) (VObj [(tx "limit", VNull)]) [PKey (tx "arg")] =
  [ENullForRequired VNull (tx "Int!") [PKey (tx "arg"); PKey (tx "limit")];
   ENoValueForRequired (VObj [(tx "limit", VNull)]) [tx "color"] (tx "Filter") [PKey (tx "arg")]].
Proof. vm_compute. reflexivity. Qed.

(** C17. The errors are exactly the offending places: each error carries the starting path followed by a path
    that leads, inside the value and along the types, to a value that is wrong for the stated reason; and every
    such place is reported. *)
Theorem coerce_errors_are_the_offences :
  forall (hook : name -> value -> option text) (str_enum one_of : bool) (S : schema) (t : tref) (v : value) (p : path) (e : cerr),
    In e (coerce_value hook str_enum one_of S t v p) <->
    exists q a t' w, visits S true t v q a t' w /\ offence hook str_enum one_of S a t' w (p ++ q) e.
Proof. intros. exact (coerce_exact hook str_enum one_of S v t p true e). Qed.
Print Assumptions coerce_errors_are_the_offences.

(** C17, the path part alone: the error path extends the starting path. *)
Theorem coerce_error_path_extends :
  forall (hook : name -> value -> option text) (str_enum one_of : bool) (S : schema) (t : tref) (v : value) (p : path) (e : cerr),
    In e (coerce_value hook str_enum one_of S t v p) -> exists q, cerr_path e = p ++ q.
Proof.
  intros hook se oo S t v p e H. apply coerce_errors_are_the_offences in H as (q & a & t' & w & Hv & Ho).
  inversion Ho; subst; cbn [cerr_path]; eauto. exists (q ++ [PKey k]). rewrite app_assoc. reflexivity.
Qed.
Print Assumptions coerce_error_path_extends.

Example coerce_errors_ex : (* an offending place two levels down *)
  In (ENoImplicit (VStr (tx "x")) (tx "Int!") [PKey (tx "and"); PIndex 1; PKey (tx "limit")])
     (coerce_value no_hook false true ex_schema (TBase (tx "Filter") true)
        (VObj [(tx "color", VEnum (tx "RED"));
               (tx "and", VList [VNull; VObj [(tx "color", VEnum (tx "RED")); (tx "limit", VStr (tx "x"))]])]) []).
Proof. vm_compute. auto. Qed.

(** C18. A value of a oneOf input object type is accepted only if it is an object with exactly one entry, not null. *)
Theorem one_of_exactly_one :
  forall (hook : name -> value -> option text) (str_enum : bool) (S : schema) (n : name) (r : bool) (d : input_def)
         (es : list (name * value)) (p : path),
    get_type S n = Some (DInput d) ->
    (exists x, In x (io_dirs d) /\ dir_name x = tx "oneOf") ->
    coerce_value hook str_enum true S (TBase n r) (VObj es) p = [] ->
    exists k v i, es = [(k, v)] /\ v <> VNull /\ In i (io_fields d) /\ iv_name i = k.
Proof.
  intros hook se S n r d es p Hg Hone H. apply coerce_accepts_exactly_conforming in H.
  inversion H; subst; try congruence.
  - match goal with E : get_type S n = Some (DInput ?d') |- _ => assert (d' = d) by congruence; subst d' end.
    match goal with H : marked_one_of _ _ -> _ |- _ => destruct H as (k & v & -> & Hv); [split; auto|] end.
    match goal with H : forall k0 v0, In (k0, v0) _ -> _ |- _ => destruct (H k v) as (i & Hi & Hn); [left; auto|] end.
    eauto 10.
Qed.
Print Assumptions one_of_exactly_one.
Example one_of_ex :
  coerce_value no_hook false true ex_schema (TBase (tx "By") true) (VObj [(tx "id", VInt 1)]) [] = [] /\
  coerce_value no_hook false true ex_schema (TBase (tx "By") true) (VObj [(tx "id", VInt 1); (tx "name", VNull)]) [] <> [] /\
  coerce_value no_hook false true ex_schema (TBase (tx "By") true) (VObj []) [] <> [].
Proof. vm_compute. repeat split; discriminate. Qed.
