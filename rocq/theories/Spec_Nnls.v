(** Vocabulary for least squares problems. *)
From Coq Require Import Reals.
From Verif Require Import RSum.
Local Open Scope R_scope.

Section LeastSquares.
  Variables m n : nat.
  Variable a : nat -> nat -> R.
  Variable b : nat -> R.

  (** The square of the length of [a x - b]. *)
  Definition misfit (x : nat -> R) : R := rsum m (fun i => (rsum n (fun j => a i j * x j) - b i) ^ 2).
  Definition feasible (x : nat -> R) : Prop := forall j, (j < n)%nat -> 0 <= x j.
  (** Half the derivative of the misfit in variable [j]. *)
  Definition slope (x : nat -> R) (j : nat) : R := rsum m (fun i => a i j * (rsum n (fun k => a i k * x k) - b i)).
End LeastSquares.

(** Solver of linear systems: correct, and successful for regular matrices. *)
Definition correct (K : nat) (solve : nat -> (nat -> nat -> R) -> (nat -> R) -> option (nat -> R)) : Prop :=
  forall G c s, solve K G c = Some s -> forall k, (k < K)%nat -> rsum K (fun l => G k l * s l) = c k.
Definition regular (K : nat) (G : nat -> nat -> R) : Prop :=
  forall v, (forall k, (k < K)%nat -> rsum K (fun l => G k l * v l) = 0) -> forall k, (k < K)%nat -> v k = 0.
Definition successful (K : nat) (solve : nat -> (nat -> nat -> R) -> (nat -> R) -> option (nat -> R)) : Prop :=
  forall G c, regular K G -> exists s, solve K G c = Some s.
