(** The error function, and probabilities of a normal random number. *)
From Coq Require Import Reals.
From Coquelicot Require Import Coquelicot.
From Verif Require Import Spec_Gauss.
Local Open Scope R_scope.

Definition erf (x : R) : R := 2 / sqrt PI * RInt (fun t => exp (- t ^ 2)) 0 x.

(** The integral of the bell curve with mean [m] and standard deviation [s] between [a] and [b], and above [a]. *)
Definition bell (m s x : R) : R := gauss ((x - m) / s).
Definition bell_between (m s a b : R) : R := RInt (bell m s) a b.
Definition bell_above (m s a v : R) : Prop := is_lim (fun T => bell_between m s a T) p_infty v.
