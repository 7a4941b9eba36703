(** The observable result types of input coercion: paths and errors. *)
From Verif Require Import Base Ast.

(** bluejay-validator/src/path.rs:3-7 [PathElement] *)
Inductive pelem := PKey (k : name) | PIndex (i : nat).
(** path.rs:40-67,70-101: a [Path] is a reversed linked list of elements; [to_vec] (root first) is the observable.
    Here a path is that vector; [push] appends at the end. *)
Definition path := list pelem.
Definition ppush (p : path) (e : pelem) : path := p ++ [e].

(** input_coercion/error.rs [Error]. Simplification: [keys] of NonUniqueFieldNames is their number;
    entries of the oneOf errors are their keys; [EUnresolved] stands for a base type that does not
    resolve to an input type, which cannot happen in Rust ([InputType::as_ref] is total). *)
Inductive cerr :=
| ENullForRequired (v : value) (ty : text) (p : path)
| ENoImplicit (v : value) (ty : text) (p : path)
| ENoEnumMember (n : name) (v : value) (ty : name) (p : path)
| ENoValueForRequired (v : value) (fields : list name) (ty : name) (p : path)
| ENonUniqueFields (v : value) (field : name) (count : nat) (p : path)
| ENoInputField (field : name) (ty : name) (p : path)
| ECustomScalar (v : value) (ty : name) (msg : text) (p : path)
| EOneOfNull (v : value) (ty : name) (nulls : list name) (p : path)
| EOneOfNotSingle (v : value) (ty : name) (nonnulls : list name) (p : path)
| EUnresolved (v : value) (ty : name) (p : path).

Definition cerr_path (e : cerr) : path :=
  match e with
  | ENullForRequired _ _ p | ENoImplicit _ _ p | ENoEnumMember _ _ _ p | ENoValueForRequired _ _ _ p
  | ENonUniqueFields _ _ _ p | ENoInputField _ _ p | ECustomScalar _ _ _ p | EOneOfNull _ _ _ p
  | EOneOfNotSingle _ _ _ p | EUnresolved _ _ p => p
  end.
(** the value an error carries, if any *)
Definition cerr_value (e : cerr) : option value :=
  match e with
  | ENullForRequired v _ _ | ENoImplicit v _ _ | ENoEnumMember _ v _ _ | ENoValueForRequired v _ _ _
  | ENonUniqueFields v _ _ _ | ECustomScalar v _ _ _ | EOneOfNull v _ _ _
  | EOneOfNotSingle v _ _ _ | EUnresolved v _ _ => Some v
  | ENoInputField _ _ _ => None
  end.

