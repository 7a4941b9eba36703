(** JSON data ([serde_json::Value], miniserde's JSON) and how the library reads it as GraphQL values. *)
From Verif Require Import Base Ast.

(** [serde_json::Value]. Simplification: a number is an integer or the 64 bit pattern of a float (serde_json's [Number]
    distinguishes the same way); an object is the list of its entries in the order of the text. *)
Inductive json : Type :=
| JNull
| JBool (b : bool)
| JInt (z : Z)
| JFloat (bits : N)
| JStr (s : text)
| JList (js : list json)
| JObj (kvs : list (text * json)).

Section JsonInd.
  Variable P : json -> Prop.
  Hypothesis HNull : P JNull.
  Hypothesis HBool : forall b, P (JBool b).
  Hypothesis HInt : forall z, P (JInt z).
  Hypothesis HFloat : forall b, P (JFloat b).
  Hypothesis HStr : forall s, P (JStr s).
  Hypothesis HList : forall js, Forall P js -> P (JList js).
  Hypothesis HObj : forall kvs, Forall (fun kv => P (snd kv)) kvs -> P (JObj kvs).
  Fixpoint json_ind' (j : json) : P j :=
    match j with
    | JNull => HNull
    | JBool b => HBool b
    | JInt z => HInt z
    | JFloat b => HFloat b
    | JStr s => HStr s
    | JList js =>
        HList js ((fix go (l : list json) : Forall P l :=
                     match l with
                     | [] => Forall_nil _
                     | x :: l' => Forall_cons x (json_ind' x) (go l')
                     end) js)
    | JObj kvs =>
        HObj kvs ((fix go (l : list (text * json)) : Forall (fun kv => P (snd kv)) l :=
                     match l with
                     | [] => Forall_nil _
                     | kv :: l' => Forall_cons kv (json_ind' (snd kv)) (go l')
                     end) kvs)
    end.
End JsonInd.

(** does the integer fit in 32 bits ([i32::try_from])? *)
Definition fits_i32 (z : Z) : bool := (Z.leb (-2147483648) z && Z.leb z 2147483647)%bool.

(** bluejay-core/src/value/serde_json.rs:27-42 [Value::as_ref for JsonValue]: a JSON value seen as a GraphQL value.
    [as_f64] converts an integer to the nearest float ([Number::as_f64]). *)
Fixpoint json_value (as_f64 : Z -> N) (j : json) : value :=
  match j with
  | JNull => VNull
  | JBool b => VBool b
  | JInt z => if fits_i32 z then VInt z else VFloat (as_f64 z)
  | JFloat b => VFloat b
  | JStr s => VStr s
  | JList js => VList (map (json_value as_f64) js)
  | JObj kvs => VObj (map (fun kv => (fst kv, json_value as_f64 (snd kv))) kvs)
  end.
