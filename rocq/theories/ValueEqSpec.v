(** When two values are the same. *)
From Coq Require Import Permutation.
From Verif Require Import Base Ast.

(** the number that a binary64 pattern stands for, in units of the smallest positive one, 2^-1074 *)
Inductive number : Type := NaN | Infinite (negative : bool) | Finite (z : Z).
Definition f64_number (b : N) : number :=
  let negative := N.leb (2 ^ 63) b in
  let exponent := ((b / 2 ^ 52) mod 2 ^ 11)%N in
  let fraction := (b mod 2 ^ 52)%N in
  if N.eqb exponent 2047 then (if N.eqb fraction 0 then Infinite negative else NaN)
  else
    let magnitude := if N.eqb exponent 0 then fraction else ((2 ^ 52 + fraction) * 2 ^ (exponent - 1))%N in
    Finite (if negative then - Z.of_N magnitude else Z.of_N magnitude)%Z.
Definition f64 (b : N) : Prop := (b < 2 ^ 64)%N.

(** the value of a key: the last one that is given for it *)
Definition entry (o : list (name * value)) (k : name) (v : value) : Prop := assoc_last k o = Some v.
Inductive same_value : value -> value -> Prop :=
| sv_var n : same_value (VVar n) (VVar n)
| sv_int z : same_value (VInt z) (VInt z)
| sv_float a b : f64_number a <> NaN -> f64_number a = f64_number b -> same_value (VFloat a) (VFloat b)
| sv_str s : same_value (VStr s) (VStr s)
| sv_bool b : same_value (VBool b) (VBool b)
| sv_null : same_value VNull VNull
| sv_enum n : same_value (VEnum n) (VEnum n)
| sv_list l l' : Forall2 same_value l l' -> same_value (VList l) (VList l')
| sv_obj o o' :
    (forall k v, entry o k v -> exists v', entry o' k v' /\ same_value v v') ->
    (forall k v', entry o' k v' -> exists v, entry o k v) ->
    same_value (VObj o) (VObj o').

(** Values in which every float has 64 bits, values without NaN, values in which no key is given twice *)
Inductive every_float (P : N -> Prop) : value -> Prop :=
| ef_var n : every_float P (VVar n)
| ef_int z : every_float P (VInt z)
| ef_float b : P b -> every_float P (VFloat b)
| ef_str s : every_float P (VStr s)
| ef_bool b : every_float P (VBool b)
| ef_null : every_float P VNull
| ef_enum n : every_float P (VEnum n)
| ef_list l : Forall (every_float P) l -> every_float P (VList l)
| ef_obj o : Forall (fun p => every_float P (snd p)) o -> every_float P (VObj o).
Definition f64s : value -> Prop := every_float f64.
Definition no_nan : value -> Prop := every_float (fun b => f64_number b <> NaN).
Inductive keys_once : value -> Prop :=
| ko_var n : keys_once (VVar n)
| ko_int z : keys_once (VInt z)
| ko_float b : keys_once (VFloat b)
| ko_str s : keys_once (VStr s)
| ko_bool b : keys_once (VBool b)
| ko_null : keys_once VNull
| ko_enum n : keys_once (VEnum n)
| ko_list l : Forall keys_once l -> keys_once (VList l)
| ko_obj o : NoDup (map fst o) -> Forall (fun p => keys_once (snd p)) o -> keys_once (VObj o).
(** the same, but for the order of the entries of objects and the sign of zero *)
Inductive rearranged : value -> value -> Prop :=
| re_var n : rearranged (VVar n) (VVar n)
| re_int z : rearranged (VInt z) (VInt z)
| re_float a b : f64_number a = f64_number b -> rearranged (VFloat a) (VFloat b)
| re_str s : rearranged (VStr s) (VStr s)
| re_bool b : rearranged (VBool b) (VBool b)
| re_null : rearranged VNull VNull
| re_enum n : rearranged (VEnum n) (VEnum n)
| re_list l l' : Forall2 rearranged l l' -> rearranged (VList l) (VList l')
| re_obj o p o' : Forall2 (fun a b => fst a = fst b /\ rearranged (snd a) (snd b)) o p -> Permutation p o' -> rearranged (VObj o) (VObj o').
