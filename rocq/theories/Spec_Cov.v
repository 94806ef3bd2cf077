(** Vocabulary for covariance matrices. *)
From Coq Require Import Reals.
From Verif Require Import RSum.
Local Open Scope R_scope.

Section Matrices.
  Variable n : nat.
  Implicit Types A B C : nat -> nat -> R.

  Definition symmetric A : Prop := forall i j, (i < n)%nat -> (j < n)%nat -> A i j = A j i.
  Definition same A B : Prop := forall i j, (i < n)%nat -> (j < n)%nat -> A i j = B i j.
  Definition unit_diag A : Prop := forall i, (i < n)%nat -> A i i = 1.

  (** The quadratic form of a matrix, and the square of the length of a vector. *)
  Definition quad A (x : nat -> R) : R := rsum n (fun i => rsum n (fun j => x i * A i j * x j)).
  Definition normsq (x : nat -> R) : R := rsum n (fun i => x i ^ 2).

  (** All eigenvalues are at least [c], or at most [c], in terms of the quadratic form. *)
  Definition at_least c A : Prop := forall x, c * normsq x <= quad A x.
  Definition at_most c A : Prop := forall x, quad A x <= c * normsq x.
  Definition positive_semidefinite A : Prop := forall x, 0 <= quad A x.
  (** The largest eigenvalue. *)
  Definition top A l : Prop := at_most l A /\ exists x, normsq x = 1 /\ quad A x = l.

  (** Square of the distance of matrices. *)
  Definition distance A B : R := rsum n (fun i => rsum n (fun j => (A i j - B i j) ^ 2)).

  (** An orthonormal system of eigenvectors, the columns of [v], with eigenvalues [w] in ascending order. *)
  Definition eigensystem A (w : nat -> R) (v : nat -> nat -> R) : Prop :=
    (forall k l, (k < n)%nat -> (l < n)%nat -> rsum n (fun i => v i k * v i l) = if Nat.eqb k l then 1 else 0) /\
    (forall i j, (i < n)%nat -> (j < n)%nat -> rsum n (fun k => v i k * v j k) = if Nat.eqb i j then 1 else 0) /\
    (forall i j, (i < n)%nat -> (j < n)%nat -> A i j = rsum n (fun k => w k * v i k * v j k)) /\
    (forall k l, (k <= l < n)%nat -> w k <= w l).
End Matrices.
