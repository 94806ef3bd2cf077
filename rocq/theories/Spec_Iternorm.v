(** Vocabulary for the iterative normal sampler. *)
From Verif Require Import RSum.
Local Open Scope nat_scope.

(** A vector of [k+1] weights for draw [i] applies to the standard normals number [i-k], ..., [i]
    in this order; [coefficient k w i q] is the factor of standard normal [q] in draw [i]. *)
Definition coefficient (k : nat) (w : nat -> R) (i q : nat) : R :=
  if (i <=? q + k) && (q <=? i) then w (q + k - i) else 0%R.

(** Covariance of two linear combinations of independent standard normals number 0, ..., n-1. *)
Definition covariance (n : nat) (x y : nat -> R) : R := rsum n (fun q => (x q * y q)%R).

(** A symmetric n-by-n matrix is positive (semi-)definite. *)
Definition quadratic (n : nat) (c : nat -> nat -> R) (v : nat -> R) : R :=
  rsum n (fun i => rsum n (fun j => (v i * c i j * v j)%R)).
Definition symmetric (n : nat) (c : nat -> nat -> R) : Prop :=
  forall i j, i < n -> j < n -> c i j = c j i.
Definition semidefinite (n : nat) (c : nat -> nat -> R) : Prop :=
  symmetric n c /\ forall v, (0 <= quadratic n c v)%R.
Definition definite (n : nat) (c : nat -> nat -> R) : Prop :=
  symmetric n c /\ forall v, (exists i, i < n /\ v i <> 0%R) -> (0 < quadratic n c v)%R.
(** The zero matrix: nothing varies. *)
Definition absent (n : nat) (c : nat -> nat -> R) : Prop := forall i j, i < n -> j < n -> c i j = 0%R.

(** The matrix with everything beyond the [k]-th diagonals on either side set to zero. *)
Definition banded (k : nat) (c : nat -> nat -> R) (i j : nat) : R :=
  if (i <=? j + k) && (j <=? i + k) then c i j else 0%R.
(** The covariances that are left when each field is correlated with at most [ncorr] fields on either side. *)
Definition limited (ncorr : option nat) (c : nat -> nat -> R) : nat -> nat -> R :=
  match ncorr with Some k => banded k c | None => c end.
