(** Variables: where they are used, what an operation can reach, and when a use is allowed. *)
From Verif Require Import Base Ast Graph Doc DocSpec DocRulesSpec.

(** The variable [x] occurs in the value, at any depth. *)
Inductive var_in (x : name) : value -> Prop :=
| vi_here : var_in x (VVar x)
| vi_list vs v : In v vs -> var_in x v -> var_in x (VList vs)
| vi_obj es k v : In (k, v) es -> var_in x v -> var_in x (VObj es).

(** The name [n] denotes the fragment at position [j]: the last one so named. *)
Definition denotes (d : document) (n : name) (j : nat) : Prop :=
  exists f, nth_error (doc_frags d) j = Some f /\ fr_name f = n /\
            forall k g, nth_error (doc_frags d) k = Some g -> fr_name g = n -> k <= j.

Section Uses.
  Variable S : schema.
  Variable d : document.
  (** The variable is used in an argument given to a field or directive in [r]. *)
  Definition uses_at (r : root) (x : name) : Prop := exists a i, argument_at S d r a i /\ var_in x (snd a).
  (** [r] spreads the fragment [r']. *)
  Inductive refers : root -> root -> Prop :=
  | refers_intro r t n ds j : sel_at S d r t (SSpread n ds) -> denotes d n j -> refers r (RFrag j).
  (** The operation at position [i] uses the variable, itself or through fragments. *)
  Definition operation_uses (i : nat) (x : name) : Prop := exists r, star refers (ROp i) r /\ uses_at r x.
End Uses.

(** * The same in terms of the text only *)
Section Text.
  Variable d : document.
  (** [x] is written in some argument of a field, or of a directive on a field, spread, inline fragment, operation or
      fragment definition. *)
  Definition var_in_args (x : name) (args : list argument) : Prop := exists a, In a args /\ var_in x (snd a).
  Definition var_in_dirs (x : name) (ds : list directive) : Prop := exists y, In y ds /\ var_in_args x (dir_args y).
  Definition var_in_selection (x : name) (s : selection) : Prop :=
    match s with
    | SField _ _ args ds _ => var_in_args x args \/ var_in_dirs x ds
    | SSpread _ ds => var_in_dirs x ds
    | SInline _ ds _ => var_in_dirs x ds
    end.
  Inductive written_in (x : name) : root -> Prop :=
  | wr_sel r s : occurs_in d s r -> var_in_selection x s -> written_in x r
  | wr_op i o : nth_error (doc_ops d) i = Some o -> var_in_dirs x (op_dirs o) -> written_in x (ROp i)
  | wr_frag i f : nth_error (doc_frags d) i = Some f -> var_in_dirs x (fr_dirs f) -> written_in x (RFrag i).
  Inductive spreads_text : root -> root -> Prop :=
  | spreads_text_intro r n ds j : occurs_in d (SSpread n ds) r -> denotes d n j -> spreads_text r (RFrag j).
  Definition operation_writes (i : nat) (x : name) : Prop := exists r, star spreads_text (ROp i) r /\ written_in x r.
End Text.

(** * Allowed uses (GraphQL 5.8.5, IsVariableUsageAllowed) *)
(** [AreTypesCompatible] *)
Inductive compatible : tref -> tref -> Prop :=
| compat_base n vr lr : (lr = true -> vr = true) -> compatible (TBase n vr) (TBase n lr)
| compat_list vt lt vr lr : (lr = true -> vr = true) -> compatible vt lt -> compatible (TList vt vr) (TList lt lr).
Definition has_non_null_value (o : option value) : Prop := exists v, o = Some v /\ v <> VNull.
(** variable type [vt] with default [vdef], used where [lt] is expected and [ldef] is the default of the argument or input
    field (if any) *)
Definition usage_ok (vt : tref) (vdef : option value) (lt : tref) (ldef : option value) : Prop :=
  compatible vt lt \/
  (tref_required lt = true /\ (has_non_null_value vdef \/ has_non_null_value ldef) /\ compatible vt (tref_nullable lt)).

(** Where a variable stands inside an argument value: expected type and, for an argument or an input field, its default.
    [located S t df v x t' df']: [v] is expected to have type [t] (with default [df]); inside it [x] stands where [t'] is
    expected. *)
Section Located.
  Variable S : schema.
  Inductive located : tref -> option value -> value -> name -> tref -> option value -> Prop :=
  | loc_here t df x : located t df (VVar x) x t df
  | loc_item inner r df vs v x t' df' :
      In v vs -> located inner None v x t' df' -> located (TList inner r) df (VList vs) x t' df'
  | loc_field t df io es k v f x t' df' :
      get_type S (tref_base t) = Some (DInput io) -> In (k, v) es -> get_ivd (io_fields io) k = Some f ->
      located (iv_type f) (iv_default f) v x t' df' -> located t df (VObj es) x t' df'.
  (** The use of [x] at a place of root [r]. *)
  Definition used_as (d : document) (r : root) (x : name) (t : tref) (df : option value) : Prop :=
    exists a i, argument_at S d r a i /\ located (iv_type i) (iv_default i) (snd a) x t df.
End Located.
(** [x] occurs in an input object literal that is an item of a list literal, e.g. [[{a: $x}]]. *)
Inductive in_object_in_list (x : name) : value -> Prop :=
| oil_here vs es : In (VObj es) vs -> var_in x (VObj es) -> in_object_in_list x (VList vs)
| oil_list vs v : In v vs -> in_object_in_list x v -> in_object_in_list x (VList vs)
| oil_obj es k v : In (k, v) es -> in_object_in_list x v -> in_object_in_list x (VObj es).

(** Replace the variables of a value. *)
Fixpoint subst (env : name -> value) (v : value) : value :=
  match v with
  | VVar x => env x
  | VList vs => VList (map (subst env) vs)
  | VObj es => VObj (map (fun e => (fst e, subst env (snd e))) es)
  | _ => v
  end.
