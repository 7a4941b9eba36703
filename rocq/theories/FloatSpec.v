(** Writing and reading floats. *)
From Verif Require Import Base Ast Decimal10 Lexer LexerSpec ValueEqSpec.
Local Open Scope list_scope.

(** how many units of f64_number make 1 *)
Definition one : Z := (2 ^ 1074)%Z.
(** an integer, or at least 10^-10 away from the next integer towards zero *)
Definition printable (b : N) : Prop :=
  exists z, f64_number b = Finite z /\ (Z.rem z one = 0 \/ one <= 10 ^ 10 * Z.abs (Z.rem z one))%Z.
(** a decimal literal without exponent has exactly the value of the float, and its sign *)
Definition writes_exactly (l : text) (b : N) : Prop :=
  exists (negative : bool) i f z, l = (if negative then [45%N] else []) ++ i ++ [46%N] ++ f /\ unsigned_int i /\ digits1 f /\
    negative = N.leb (2 ^ 63) b /\ f64_number b = Finite z /\
    (Z.of_N (digits_value (i ++ f)) * one = Z.abs z * 10 ^ Z.of_nat (length f))%Z.
(** What is asked of the standard library: reading floats takes ASCII only, gives 64 bits, and is exact where it can be; a number that
    is no integer is shown with a decimal point, by digits that are read as the same number. *)
Record platform (parse_f64 : text -> option N) (shortest : N -> text) : Prop := {
  pl_ascii : forall l b, parse_f64 l = Some b -> Forall (fun c => c < 128)%N l;
  pl_bits : forall l b, parse_f64 l = Some b -> f64 b;
  pl_exact : forall l b, f64 b -> writes_exactly l b -> parse_f64 l = Some b;
  pl_shortest : forall b z, f64 b -> f64_number b = Finite z -> (Z.rem z one <> 0)%Z -> float_literal (shortest b) /\ parse_f64 (shortest b) = Some b
}.
(** names are GraphQL names, integers have 32 bits, floats are printable *)
Definition sayable (t : token) : Prop :=
  match t with
  | TkName n | TkVar n => is_name n
  | TkInt z => fits_i32 z
  | TkFloat b => f64 b /\ printable b
  | _ => True
  end.
