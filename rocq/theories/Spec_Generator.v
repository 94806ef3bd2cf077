(** Vocabulary for generators. *)
From Coq Require Import Reals ZArith.
Local Open Scope R_scope.

(** A double that NumPy draws from the unit interval: a multiple of 2^-53. *)
Definition unit_double (x : R) : Prop := exists k : Z, (0 <= k < 2 ^ 53)%Z /\ x = IZR k / 2 ^ 53.
