(** What can be relied on in a schema that was read from a text. *)
From Coq Require Import String.
From Verif Require Import Base Ast LexerSpec ValueEqSpec DefParser Compare CompareSpec ChangeTextSpec.
Local Open Scope string_scope.
Local Open Scope list_scope.

(** constant values: no variables, 32 bit integers, 64 bit floats that are not NaN, names *)
Inductive constant : value -> Prop :=
| co_int z : fits_i32 z -> constant (VInt z)
| co_float b : f64 b -> f64_number b <> NaN -> constant (VFloat b)
| co_str s : constant (VStr s)
| co_bool b : constant (VBool b)
| co_null : constant VNull
| co_enum n : is_name n -> ~ In n [tx "true"; tx "false"; tx "null"] -> constant (VEnum n)
| co_list l : Forall constant l -> constant (VList l)
| co_obj o : Forall (fun p => is_name (fst p) /\ constant (snd p)) o -> constant (VObj o).

Record well_made (s : schema) : Prop := {
  (** names are GraphQL names, also those of applied directives and their arguments *)
  wm_names : graphql_names s;
  wm_interfaces : forall d i, In (DInterface d) (s_types s) -> In i (if_ifaces d) -> is_name i;
  wm_directives : forall l d, directives_in s l -> In d l -> is_name (dir_name d) /\ forall a v, In (a, v) (dir_args d) -> is_name a;
  (** no two types and no two directives have the same name, be they built in or not *)
  wm_types : NoDup (map td_name (s_types s));
  wm_ddefs : NoDup (map dd_name (s_ddefs s));
  (** default values and the arguments of applied directives are constants *)
  wm_values : forall v, value_in s v -> constant v;
  (** nothing is empty: the fields that are always there do not count *)
  wm_fields : forall l, fields_in s l -> exists f, In f l /\ ~ In f [typename_field; schema_field; type_field];
  wm_members : forall d, In (DUnion d) (s_types s) -> un_members d <> [];
  wm_input_fields : forall d, In (DInput d) (s_types s) -> io_fields d <> [];
  wm_enum_values : forall d, In (DEnum d) (s_types s) -> en_values d <> [];
  wm_locations : forall d, In d (s_ddefs s) -> dd_locs d <> [];
  (** no enum value is [true], [false] or [null] *)
  wm_enum_names : forall d v, In (DEnum d) (s_types s) -> In v (en_values d) -> ~ In (ev_name v) [tx "true"; tx "false"; tx "null"];
  (** every object type, interface and union has [__typename] *)
  wm_typename : forall l, fields_in s l -> In typename_field l;
  wm_union_typename : forall d, In (DUnion d) (s_types s) -> un_fields d = [typename_field] }.
(** the names of the members of anything are given once; no directive is applied twice to anything *)
Record members_once (s : schema) : Prop := {
  mo_fields : forall l, fields_in s l -> NoDup (map fd_name l);
  mo_inputs : forall l, inputs_in s l -> NoDup (map iv_name l);
  mo_enum_values : forall d, In (DEnum d) (s_types s) -> NoDup (map ev_name (en_values d));
  mo_directives : forall l, directives_in s l -> NoDup (map dir_name l);
  mo_directive_arguments : forall l d, directives_in s l -> In d l -> NoDup (map fst (dir_args d)) }.
