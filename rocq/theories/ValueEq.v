(** bluejay-core/src/value.rs:100-134 and argument.rs:19-33: comparing values and arguments. *)
From Verif Require Import Base Ast.

(** [HashMap::from_iter] keeps the last entry of each key: the entries that remain *)
Fixpoint kept {A} (l : list (text * A)) : list (text * A) :=
  match l with [] => [] | (k, a) :: l' => if tmem k (map fst l') then kept l' else (k, a) :: kept l' end.

(** [PartialEq for ValueReference] (value.rs:100-134). [itertools::equal] compares element by element and lengths;
    [HashMap::eq] compares sizes and then looks each entry of the left map up in the right one. The loop over the entries of
    the left map is written out as the recursion [all] over the list it is made from, leaving out the entries that are replaced. *)
Fixpoint value_eqb (v w : value) : bool :=
  match v with
  | VVar n => match w with VVar n' => teqb n n' | _ => false end
  | VInt z => match w with VInt z' => Z.eqb z z' | _ => false end
  | VFloat b => match w with VFloat b' => f64_eqb b b' | _ => false end
  | VStr s => match w with VStr s' => teqb s s' | _ => false end
  | VBool b => match w with VBool b' => Bool.eqb b b' | _ => false end
  | VNull => match w with VNull => true | _ => false end
  | VEnum n => match w with VEnum n' => teqb n n' | _ => false end
  | VList l =>
      match w with
      | VList l' =>
          (fix equal (a b : list value) : bool :=
             match a, b with [], [] => true | x :: a', y :: b' => value_eqb x y && equal a' b' | _, _ => false end) l l'
      | _ => false
      end
  | VObj o =>
      match w with
      | VObj o' =>
          Nat.eqb (length (kept o)) (length (kept o')) &&
          (fix all (l : list (name * value)) : bool :=
             match l with
             | [] => true
             | (k, x) :: l' =>
                 if tmem k (map fst l') then all l'
                 else (match assoc_last k o' with Some y => value_eqb x y | None => false end) && all l'
             end) o
      | _ => false
      end
  end.
(** [Arguments::equivalent] (argument.rs:19-33); no arguments and an empty list are both the empty map *)
Definition arguments_equivalent (a b : list argument) : bool :=
  Nat.eqb (length (kept a)) (length (kept b)) &&
  forallb (fun p => match assoc_last (fst p) b with Some y => value_eqb (snd p) y | None => false end) (kept a).
