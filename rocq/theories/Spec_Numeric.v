(** Vocabulary for statements about sampled functions. *)
From Coq Require Import Reals Lra List.
From Coquelicot Require Import Coquelicot.
Import ListNotations.
Local Open Scope R_scope.

(** A grid of sample points in strictly increasing order. *)
Definition increasing (xs : list R) : Prop :=
  forall i a b, nth_error xs i = Some a -> nth_error xs (S i) = Some b -> a < b.

(** A grid in which a value may be repeated. *)
Definition nondecreasing (xs : list R) : Prop :=
  forall i a b, nth_error xs i = Some a -> nth_error xs (S i) = Some b -> a <= b.

(** [a] and [b] are the first and last entry of a list. *)
Definition starts_with {A} (xs : list A) (a : A) : Prop := nth_error xs 0 = Some a.
Definition ends_with {A} (xs : list A) (b : A) : Prop :=
  nth_error xs (length xs - 1) = Some b.

(** [g] is the piecewise linear function through the samples
    [(xs_i, fs_i)]: on each interval between neighbouring sample points
    it is the weighted mean of the two values. *)
Definition interpolates (g : R -> R) (xs fs : list R) : Prop :=
  forall i a b fa fb x,
    nth_error xs i = Some a -> nth_error xs (S i) = Some b ->
    nth_error fs i = Some fa -> nth_error fs (S i) = Some fb ->
    a <= x <= b -> g x * (b - a) = fa * (b - x) + fb * (x - a).

(** [g] passes through the samples. *)
Definition passes_through (g : R -> R) (xs fs : list R) : Prop :=
  forall i a fa, nth_error xs i = Some a -> nth_error fs i = Some fa -> g a = fa.

(** The integral of [g] from [a] to [b] is [v]. *)
Definition integral (g : R -> R) (a b v : R) : Prop := is_RInt g a b v.
