(** How floats are written: bluejay-printer/src/value.rs:23-29. *)
From Coq Require Import String.
From Verif Require Import Base Ast Decimal10.
Local Open Scope list_scope.
Local Open Scope N_scope.

(** binary64 patterns: the biased exponent, the fraction field, the sign ([f64::is_sign_negative]); the magnitude of a finite one, in
    units of the smallest positive one, of which [f64_unit] make 1 *)
Definition f64_exponent (b : N) : N := (b / 2 ^ 52) mod 2 ^ 11.
Definition f64_fraction (b : N) : N := b mod 2 ^ 52.
Definition f64_negative (b : N) : bool := N.leb (2 ^ 63) b.
Definition f64_magnitude (b : N) : N := if N.eqb (f64_exponent b) 0 then f64_fraction b else (2 ^ 52 + f64_fraction b) * 2 ^ (f64_exponent b - 1).
Definition f64_unit : N := 2 ^ 1074.
(** the literal [1e-10] *)
Definition f64_1e_10 : N := 4457293557087583675.

(** value.rs:24, [fl.fract().abs() < 1e-10]. [fract] is [self - self.trunc()], which is exact; it is NaN for infinities and NaN. *)
Definition near_integer (b : N) : bool :=
  negb (N.eqb (f64_exponent b) 2047) && N.ltb (f64_magnitude b mod f64_unit) (f64_magnitude f64_1e_10).
Definition sign_text (b : N) : text := if f64_negative b then [45] else [].
(** value.rs:25, [{fl:.1}]: the exact value rounded to tenths. (How halves are rounded does not matter here: no near integer lies
    halfway between tenths.) *)
Definition print_tenths (b : N) : text :=
  let tenths := (20 * f64_magnitude b + f64_unit) / (2 * f64_unit) in
  sign_text b ++ show_N (tenths / 10) ++ [46] ++ show_N (tenths mod 10).
Section Display.
  (** [{}] of a finite [f64]: the shortest digits that are read as the same number, without exponent; std, not modelled *)
  Variable shortest : N -> text.
  (** [Display for f64] *)
  Definition display_float (b : N) : text :=
    if N.eqb (f64_exponent b) 2047 then (if N.eqb (f64_fraction b) 0 then sign_text b ++ tx "inf" else tx "NaN") else shortest b.
  (** value.rs:23-29 *)
  Definition print_float (b : N) : text := if near_integer b then print_tenths b else display_float b.
End Display.
