(** Normal random numbers: expected values as quotients of integrals. *)
From Coq Require Import Reals.
From Coquelicot Require Import Coquelicot.
From Verif Require Import RSum.
Local Open Scope R_scope.

Definition gauss (x : R) : R := exp (- x ^ 2 / 2).
(** Integral over a symmetric interval. *)
Definition within (f : R -> R) (T : R) : R := RInt (fun x => f x * gauss x) (- T) T.
(** The expected value of a function of a standard normal number: the integral over all numbers, in units of the
    integral of the Gauss function. *)
Definition mean (f : R -> R) (m : R) : Prop :=
  (forall a b, ex_RInt (fun x => f x * gauss x) a b) /\ is_lim (fun T => within f T / within (fun _ => 1) T) p_infty m.

(** The expected value of [f (p * u) (q * u + r * w)] for independent standard normal numbers [u] and [w].  The two
    arguments of [f] are any two jointly normal numbers with mean zero. *)
Definition mean2 (p q r : R) (f : R -> R -> R) (m : R) : Prop :=
  exists g, (forall u, mean (fun w => f (p * u) (q * u + r * w)) (g u)) /\ mean g m.

(** The expected value of a function of [n] independent standard normal numbers. *)
Fixpoint means (n : nat) (f : list R -> R) (m : R) : Prop :=
  match n with
  | O => f nil = m
  | S n => exists g, (forall u, means n (fun l => f (cons u l)) (g u)) /\ mean g m
  end.

(** A linear combination of the numbers. *)
Definition combination (n : nat) (a : nat -> R) (u : list R) : R := rsum n (fun q => a q * List.nth q u 0).
