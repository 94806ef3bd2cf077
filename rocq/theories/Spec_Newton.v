(** Vocabulary for claims about Newton steps. *)
From Verif Require Import RSum.
From Coq Require Import List.
Import ListNotations.
Local Open Scope R_scope.

(** A transformation of arrays that is given by matrices, one for every length. *)
Definition by_matrix (f : list R -> list R) (A : nat -> nat -> nat -> R) : Prop :=
  forall x, length (f x) = length x /\
    forall i, (i < length x)%nat -> nth i (f x) 0 = rsum (length x) (fun k => A (length x) i k * nth k x 0).

(** The array [a] moved by [t] in the direction [b]. *)
Definition moved (a b : list R) (t : R) : list R := map (fun p => fst p + t * snd p) (combine a b).
