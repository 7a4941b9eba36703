(** What a value of the generated types says about the JSON it was read from, whatever the JSON is (C94). *)
From Verif Require Import Base Ast Json Typegen TypegenDe.
Local Open Scope string_scope.
Local Open Scope list_scope.

Section ReadFrom.
  Variable cod : codec.
  Variable S : schema.
  (** what the Rust type of a custom scalar accepts *)
  Variable scalar_de : name -> json -> bool.
  Definition is_number (j : json) : Prop := (exists z, j = JInt z) \/ (exists f, j = JFloat f).
  (** [read_from v j]: everything in [v] is in [j], at the same place. Only serde leaves out an entry, and then the field is [None]. The variant of an
      enum is what __typename says; with miniserde __typename comes first, and there is no entry that the variant does not have. *)
  Inductive read_from : rval -> json -> Prop :=
  | rf_none : read_from RNone JNull
  | rf_some v j : j <> JNull -> read_from v j -> read_from (RSome v) j
  | rf_vec vs js : Forall2 read_from vs js -> read_from (RVec vs) (JList js)
  | rf_struct fs kvs :
      (forall k v, In (k, v) fs -> (exists j, assoc k kvs = Some j /\ read_from v j) \/ (cod = Serde /\ v = RNone /\ ~ In k (map fst kvs))) ->
      read_from (RStruct fs) (JObj kvs)
  | rf_variant_serde n fs kvs : cod = Serde -> assoc (tx "__typename") kvs = Some (JStr n) ->
      (forall k v, In (k, v) fs ->
         (exists j, k <> tx "__typename" /\ assoc k kvs = Some j /\ read_from v j) \/ (v = RNone /\ (k = tx "__typename" \/ ~ In k (map fst kvs)))) ->
      read_from (RVariant n fs) (JObj kvs)
  | rf_variant_miniserde n fs kvs : cod = Miniserde ->
      (forall k, In k (map fst kvs) <-> In k (map fst fs)) ->
      (forall k v, In (k, v) fs -> exists j, assoc k kvs = Some j /\ read_from v j) ->
      read_from (RVariant n fs) (JObj ((tx "__typename", JStr n) :: kvs))
  | rf_other_serde n kvs : cod = Serde -> assoc (tx "__typename") kvs = Some (JStr n) -> read_from ROther (JObj kvs)
  | rf_other_miniserde n : cod = Miniserde -> read_from ROther (JObj [(tx "__typename", JStr n)])
  | rf_bool b : read_from (RBool b) (JBool b)
  | rf_int z : (-2147483648 <= z <= 2147483647)%Z -> read_from (RInt z) (JInt z)
  | rf_float j : is_number j -> read_from (RFloat j) j
  | rf_str s : read_from (RStr s) (JStr s)
  | rf_enum t x e : get_type S t = Some (DEnum x) -> In e (en_values x) -> read_from (REnumValue (ev_name e)) (JStr (ev_name e))
  | rf_enum_other t x s : get_type S t = Some (DEnum x) -> ~ In s (map ev_name (en_values x)) -> read_from REnumOther (JStr s)
  | rf_custom n j : scalar_de n j = true -> read_from (RCustom n j) j.
End ReadFrom.
