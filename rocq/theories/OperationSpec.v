(** What an operation selects, with fragments expanded in place; conditions of skip and include; sizes and deprecated
    uses of input values. Independent of the analyzers' code. *)
From Verif Require Import Base Ast Graph Doc DocSpec FragmentsSpec DocVariablesSpec.
From Verif Require Export Decimal10.

(** One step from a selection set into a selection set below it. *)
Inductive step := StField (ds : list directive) | StInline (ds : list directive) | StSpread (n : name) (ds : list directive).
Definition step_dirs (s : step) : list directive := match s with StField ds | StInline ds | StSpread _ ds => ds end.
(** the fragments entered on the way *)
Fixpoint path_fragments (p : list step) : list name :=
  match p with [] => [] | StSpread n _ :: p' => n :: path_fragments p' | _ :: p' => path_fragments p' end.
(** how many fields enclose the place *)
Fixpoint path_fields (p : list step) : nat :=
  match p with [] => 0 | StField _ :: p' => 1 + path_fields p' | _ :: p' => path_fields p' end.
(** no fragment is entered inside itself *)
Definition simple (p : list step) : Prop := NoDup (path_fragments p).

Definition sel_dirs (s : selection) : list directive :=
  match s with SField _ _ _ ds _ | SSpread _ ds | SInline _ ds _ => ds end.

Section Reach.
  Variable S : schema.
  Variable d : document.
  Variable o : operation.
  (** [reaches p t sels]: from the operation's selection set the steps [p] (the last one first) lead to the selection set
      [sels] on type [t]. *)
  Inductive reaches : list step -> tdef -> list selection -> Prop :=
  | r_root t : root_type S (op_type o) t -> reaches [] t (op_sel o)
  | r_field p t sels al n args ds sub fd t1 :
      reaches p t sels -> In (SField al n args ds sub) sels -> has_field t n fd -> sub <> [] ->
      get_type S (tref_base (fd_type fd)) = Some t1 -> reaches (StField ds :: p) t1 sub
  | r_inline p t sels ds sub :
      reaches p t sels -> In (SInline None ds sub) sels -> reaches (StInline ds :: p) t sub
  | r_inline_on p t sels c ds sub t1 :
      reaches p t sels -> In (SInline (Some c) ds sub) sels -> get_type S c = Some t1 -> reaches (StInline ds :: p) t1 sub
  | r_spread p t sels n ds f t1 :
      reaches p t sels -> In (SSpread n ds) sels -> defines d n f -> get_type S (fr_cond f) = Some t1 ->
      reaches (StSpread n ds :: p) t1 (fr_sel f).

  (** The selection [s], selected from [t], is part of the operation; [p] leads to it. *)
  Definition selected (p : list step) (t : tdef) (s : selection) : Prop := exists sels, reaches p t sels /\ In s sels.

  (** The argument [a], defined by [i], is given somewhere in the operation (fragments expanded); [p] are the steps that
      lead to the field or directive that takes it, the selection itself included. *)
  Inductive argument_used : list (list directive) -> argument -> ivd -> Prop :=
  | au_field p t al n args ds sub fd a i :
      selected p t (SField al n args ds sub) -> has_field t n fd -> In a args -> get_ivd (fd_args fd) (fst a) = Some i ->
      argument_used (ds :: map step_dirs p) a i
  | au_dir p t s x dd a i :
      selected p t s ->
      (forall al n args ds sub, s = SField al n args ds sub -> exists fd, has_field t n fd) ->
      In x (sel_dirs s) -> get_ddef S (dir_name x) = Some dd -> In a (dir_args x) -> get_ivd (dd_args dd) (fst a) = Some i ->
      argument_used (sel_dirs s :: map step_dirs p) a i
  | au_op x dd a i :
      In x (op_dirs o) -> get_ddef S (dir_name x) = Some dd -> In a (dir_args x) -> get_ivd (dd_args dd) (fst a) = Some i ->
      argument_used [] a i.

  Variable vals : list (name * value).
  (** The condition [v] of a directive is [b]: a literal, or a Boolean variable with that value, provided or by default. *)
  Inductive condition : value -> bool -> Prop :=
  | cond_literal b : condition (VBool b) b
  | cond_provided x v r b : In v (op_vars o) -> vd_name v = x -> vd_type v = TBase (tx "Boolean") r ->
      In (x, VBool b) vals -> condition (VVar x) b
  | cond_default x v r b : In v (op_vars o) -> vd_name v = x -> vd_type v = TBase (tx "Boolean") r ->
      ~ In x (map fst vals) -> vd_default v = Some (VBool b) -> condition (VVar x) b.
  (** skip with a true condition, or include with a false one (GraphQL 3.13.1, 3.13.2) *)
  Definition excluded (ds : list directive) : Prop :=
    exists x c, In x ds /\ In (tx "if", c) (dir_args x) /\
      ((dir_name x = tx "skip" /\ condition c true) \/ (dir_name x = tx "include" /\ condition c false)).
  (** neither the selection (directives [ds]) nor an enclosing one is excluded *)
  Definition path_included (ds : list directive) (p : list step) : Prop :=
    ~ excluded ds /\ forall s, In s p -> ~ excluded (step_dirs s).

  (** skip and include are given at most once each, with no argument given twice *)
  Definition conditions_once (ds : list directive) : Prop :=
    forall n, n = tx "skip" \/ n = tx "include" ->
      (forall i j x y, nth_error ds i = Some x -> nth_error ds j = Some y -> dir_name x = n -> dir_name y = n -> i = j) /\
      (forall x, In x ds -> dir_name x = n -> NoDup (map fst (dir_args x))).
  (** Names are unique where the condition is looked up: skip and include at a place, their arguments, variables, values. *)
  Definition unique_conditions : Prop :=
    NoDup (map vd_name (op_vars o)) /\ NoDup (map fst vals) /\ forall p t s, selected p t s -> conditions_once (sel_dirs s).
End Reach.

(** * Sizes of input values *)
(** [inside_value v q w]: [w] is inside [v] (or is [v]); [q] are the indices and keys that lead to it. *)
Inductive inside_value : value -> list text -> value -> Prop :=
| iv_here v : inside_value v [] v
| iv_item vs i x q w : nth_error vs i = Some x -> inside_value x q w -> inside_value (VList vs) (show_nat i :: q) w
| iv_field es k x q w : In (k, x) es -> inside_value x q w -> inside_value (VObj es) (k :: q) w.
(** [oversized mx v q n]: a list of [n > mx] items stands at [q] in [v], and it is not inside another such list *)
Inductive oversized (mx : nat) : value -> list text -> nat -> Prop :=
| ov_here vs : mx < length vs -> oversized mx (VList vs) [] (length vs)
| ov_item vs i x q n : length vs <= mx -> nth_error vs i = Some x -> oversized mx x q n ->
    oversized mx (VList vs) (show_nat i :: q) n
| ov_field es k x q n : In (k, x) es -> oversized mx x q n -> oversized mx (VObj es) (k :: q) n.
(** how such a place is named in the report: [argument.key.0.key] *)
Definition dotted (base : text) (q : list text) : text := fold_left (fun b x => b ++ tx "." ++ x) q base.

(** The value a variable stands for in an operation: the provided value, or else its default, or else null. *)
Definition variable_value (o : operation) (vals : list (name * value)) (x : name) (w : value) : Prop :=
  In (x, w) vals \/
  (~ In x (map fst vals) /\ exists v, In v (op_vars o) /\ vd_name v = x /\
     match vd_default v with Some df => w = df | None => w = VNull end).
(** [v] after replacing the variables by what they stand for *)
Definition resolves_to (o : operation) (vals : list (name * value)) (v w : value) : Prop :=
  exists env, (forall x, var_in x v -> variable_value o vals x (env x)) /\ w = subst env v.

(** * Deprecated elements used by an input value *)
Definition deprecated (ds : list directive) (reason : text) : Prop :=
  exists x, In x ds /\ dir_name x = tx "deprecated" /\
    (In (tx "reason", VStr reason) (dir_args x) \/
     ((forall s, ~ In (tx "reason", VStr s) (dir_args x)) /\ reason = tx "No longer supported.")).
(** [stands_in S t v t' w]: inside [v], expected to have type [t], the value [w] stands where [t'] is expected; a value
    that is not a list also stands for a list of that one item. *)
Inductive stands_in (S : schema) : tref -> value -> tref -> value -> Prop :=
| si_here t v : stands_in S t v t v
| si_item inner r vs v t' w : In v vs -> stands_in S inner v t' w -> stands_in S (TList inner r) (VList vs) t' w
| si_single inner r v t' w : (forall vs, v <> VList vs) -> stands_in S inner v t' w -> stands_in S (TList inner r) v t' w
| si_field n r io es f v t' w :
    get_type S n = Some (DInput io) -> In f (io_fields io) -> In (iv_name f, v) es ->
    stands_in S (iv_type f) v t' w -> stands_in S (TBase n r) (VObj es) t' w.
(** [v], expected to have type [t], uses a deprecated enum value; [strings]: members may be written as strings *)
Definition uses_deprecated_enum_value (S : schema) (strings : bool) (t : tref) (v : value) (reason : text) : Prop :=
  exists n r en e w, stands_in S t v (TBase n r) w /\ get_type S n = Some (DEnum en) /\ In e (en_values en) /\
    (w = VEnum (ev_name e) \/ (strings = true /\ w = VStr (ev_name e))) /\ deprecated (ev_dirs e) reason.
(** … sets a deprecated input field *)
Definition uses_deprecated_input_field (S : schema) (t : tref) (v : value) (fname : name) (reason : text) : Prop :=
  exists n r io es f x, stands_in S t v (TBase n r) (VObj es) /\ get_type S n = Some (DInput io) /\ In f (io_fields io) /\
    In (iv_name f, x) es /\ iv_name f = fname /\ deprecated (iv_dirs f) reason.
