(** Binary64 model of the two places in [glass/fields.py] where a rounded square
    root decides an integer. *)
From Coq Require Import ZArith Reals.
From Flocq Require Import Core.
From Verif Require Import Base.
Open Scope R_scope.

(** IEEE binary64 without overflow (all values met below are far from the largest
    finite number): radix 2, 53 bits, minimal exponent -1074. *)
Definition fexp64 : Z -> Z := FLT_exp (-1074) 53.

(** Round to nearest, ties to even. *)
Definition rnd64 (x : R) : R := round radix2 fexp64 ZnearestE x.

(** CPython's conversion of an int to a double is correctly rounded. *)
Definition float_of_int (z : Z) : R := rnd64 (IZR z).

(** glass/fields.py:70-81 [_inv_triangle_number]: [math.sqrt] converts its
    argument to double and returns the correctly rounded root, [math.floor]
    returns an exact int, the comparison is in exact int arithmetic. *)
Definition inv_triangle_number_float (t : Z) : result Z :=
  let n := Zfloor (rnd64 (sqrt (float_of_int (2 * t)))) in
  if negb (Z.eqb (n * (n + 1) / 2) t) then Err ValueError else Ok n.

(** glass/fields.py:578 [int((2 * k + 0.25) ** 0.5 - 0.5)].  [pow_half] is the
    platform's [pow(x, 0.5)]; [int] truncates. *)
Definition row_of_counter_float (pow_half : R -> R) (k : Z) : Z :=
  Ztrunc (rnd64 (pow_half (rnd64 (float_of_int (2 * k) + 1 / 4)) - 1 / 2)).
