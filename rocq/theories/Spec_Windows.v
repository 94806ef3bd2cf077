(** Vocabulary for statements about radial windows. *)
From Coq Require Import Reals Lra List.
From Verif Require Import Spec_Numeric Model_Windows.
Import ListNotations.
Local Open Scope R_scope.

(** The sum of a list of numbers. *)
Definition sum_of (l : list R) : R := fold_right Rplus 0 l.

(** The grid [xs] covers exactly the interval from [a] to [b]. *)
Definition spans (xs : list R) (a b : R) : Prop :=
  increasing xs /\ starts_with xs a /\ ends_with xs b.

(** A grid with equal steps [h]. *)
Definition equal_steps (xs : list R) (h : R) : Prop :=
  forall i a b, nth_error xs i = Some a -> nth_error xs (S i) = Some b -> b - a = h.

(** Windows of weight one that tile the intervals between the edges. *)
Inductive tiles : list R -> list window -> Prop :=
| tiles_one e : tiles [e] []
| tiles_cons e e' es w ws : e < e' -> spans (za w) e e' -> wa w = map (fun _ => 1) (za w) ->
    tiles (e' :: es) ws -> tiles (e :: e' :: es) (w :: ws).
