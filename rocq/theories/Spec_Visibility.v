(** Vocabulary for stripes of the sky. *)
From Coq Require Import Reals List.
Local Open Scope R_scope.

(** The angle from the pole. *)
Definition colatitude (z : R) : R := acos z.

(** The colatitudes between two angles, or those outside if the angles are exchanged. *)
Definition within (t1 t2 c : R) : Prop :=
  (t1 < t2 /\ t1 < c <= t2) \/ (~ t1 < t2 /\ (c <= t2 \/ t1 < c)).

(** A vector of length one. *)
Definition unit_vector (x y z : R) : Prop := x * x + y * y + z * z = 1.

(** Degrees in radians. *)
Definition degrees (d : R) : R := d * PI / 180.
