(** Vocabulary for least-squares partitions of a function. *)
From Coq Require Import Reals List.
From Verif Require Import RSum.
Local Open Scope R_scope.

Section Grid.
  (** A grid of [N] points. *)
  Variable N : nat.
  Variable z : nat -> R.

  (** The trapezoidal rule for the values of [w] on the grid. *)
  Definition rule (w : R -> R) : R := rsum (N - 1) (fun k => (w (z k) + w (z (S k))) / 2 * (z (S k) - z k)).
  (** The distance of the neighbours, halved except at the ends. *)
  Definition width (k : nat) : R :=
    if Nat.eqb k 0 then z 1%nat - z 0%nat else if Nat.eqb (S k) N then z k - z (k - 1)%nat else (z (S k) - z (k - 1)%nat) / 2.

  (** How badly the sum of the [n] windows [W] with weights [x], each with integral one, fits the function [F] on the grid,
      and the sum of the weights the integral of the function. *)
  Definition badness (n : nat) (w : nat -> R -> R) (F : R -> R) (total tol : R) (x : nat -> R) : R :=
    rsum N (fun k => (width k * (rsum n (fun j => x j * (w j (z k) / rule (w j))) - F (z k))) ^ 2) +
    ((rsum n x - total) / tol) ^ 2.
End Grid.

(** [x] has the least misfit for the system of [m] equations in [n] variables. *)
Definition minimises (m n : nat) (a : nat -> nat -> R) (b x : nat -> R) : Prop :=
  forall y, rsum m (fun i => (rsum n (fun j => a i j * x j) - b i) ^ 2) <= rsum m (fun i => (rsum n (fun j => a i j * y j) - b i) ^ 2).

(** The weights of function [i] in a table with a row for each of the [n] shells. *)
Definition weights_of (out : list (list R)) (i n : nat) (x : nat -> R) : Prop :=
  forall j, (j < n)%nat -> exists row, nth_error out j = Some row /\ nth_error row i = Some (x j).

(** A thin QR decomposition: orthonormal columns of [q], and the product. *)
Definition decomposes (m n : nat) (a q r : nat -> nat -> R) : Prop :=
  (forall k l, (k < Nat.min m n)%nat -> (l < Nat.min m n)%nat -> rsum m (fun i => q i k * q i l) = if Nat.eqb k l then 1 else 0) /\
  (forall i j, (i < m)%nat -> (j < n)%nat -> a i j = rsum (Nat.min m n) (fun k => q i k * r k j)).
