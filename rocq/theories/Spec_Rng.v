(** Vocabulary for what is drawn from which random generator. *)
From Verif Require Import Base.

(** [draws sample s args vals s']: sampling from state [s], once for each argument and
    passing the state on, gives the values [vals] and leaves the state [s']. *)
Inductive draws {S A B} (sample : S -> A -> B * S) : S -> list A -> list B -> S -> Prop :=
| draws_nil s : draws sample s [] [] s
| draws_cons s a args v vals s1 s2 :
    sample s a = (v, s1) -> draws sample s1 args vals s2 ->
    draws sample s (a :: args) (v :: vals) s2.

(** The batch [b] has one point for each pixel of [pixels], and the [m]-th point uses
    the [m]-th of the numbers [offsets]. *)
Definition placed {U P} (ring2ang : nat -> U -> P) (pixels : list nat) (offsets : list U)
    (b : list P) : Prop :=
  length b = length pixels /\
  forall m i u, nth_error pixels m = Some i -> nth_error offsets m = Some u ->
    nth_error b m = Some (ring2ang i u).
