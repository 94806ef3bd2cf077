(** Vocabulary for source distributions, tomographic bins and assignment to shells. *)
From Coq Require Import Reals Lra List.
From Verif Require Import Spec_Numeric.
Import ListNotations.
Local Open Scope R_scope.

(** Bins [bins] that follow each other without gap from [a] to [b]. *)
Inductive contiguous : R -> list (R * R) -> R -> Prop :=
| no_bins a : contiguous a [] a
| one_more a b bins c : contiguous b bins c -> contiguous a ((a, b) :: bins) c.

(** The row [nz] is proportional to the values of [f] on the grid, and its integral on the
    grid, interpolating linearly between grid points, is [norm]. *)
Definition normalised_to (f : R -> R) (z nz : list R) (norm : R) : Prop :=
  (exists c, nz = map (fun x => c * f x) z) /\
  exists g a b, interpolates g z nz /\ passes_through g z nz /\ starts_with z a /\ ends_with z b /\ integral g a b norm.

(** A row that counts one single event, in position [j]. *)
Definition single_event (row : list nat) (j : nat) : Prop :=
  nth_error row j = Some 1%nat /\ forall i x, nth_error row i = Some x -> i <> j -> x = 0%nat.

(** A sampler of rows with a single event each, with the given probabilities: the event is never in
    a position of probability zero. *)
Definition categorical {S} (multinomial : S -> list (list R) -> list (list nat) * S) : Prop :=
  forall s ws counts s', multinomial s ws = (counts, s') ->
    (forall w, In w ws -> (forall p, In p w -> 0 <= p) /\ fold_right Rplus 0 w = 1) ->
    Forall2 (fun w row => length row = length w /\ exists j p, single_event row j /\ nth_error w j = Some p /\ 0 < p) ws counts.

(** The function sampled by the grid [xs] and values [fs], zero outside of the grid. *)
Definition sampled_weight (xs fs : list R) (W : R -> R) : Prop :=
  interpolates W xs fs /\ passes_through W xs fs /\
  forall x a b, starts_with xs a -> ends_with xs b -> x < a \/ b < x -> W x = 0.

(** The probabilities of an object at [z] to be outside of all shells, and in each of them. *)
Definition shell_probabilities (Ws : list (R -> R)) (z : R) (row : list R) : Prop :=
  ((forall W, In W Ws -> W z = 0) /\ row = 1 :: map (fun _ => 0) Ws) \/
  ((exists W, In W Ws /\ W z <> 0) /\
   row = 0 :: map (fun W => W z / fold_right Rplus 0 (map (fun W => W z) Ws)) Ws).

(** Batches of [batch] entries, the last one may be shorter but is not empty. *)
Definition batches_of {A} (batch : nat) (l : list (list A)) : Prop :=
  forall i r, nth_error l i = Some r ->
    length r = batch \/ (S i = length l /\ (0 < length r < batch)%nat).

(** A map of pixels computed from another one: each pixel is a mean of the pixels [near] it. *)
Definition averages (near : nat -> list nat) (rotate : list R -> list R) : Prop :=
  forall m i v lo hi, nth_error (rotate m) i = Some v ->
    (forall j, In j (near i) -> exists u, nth_error m j = Some u /\ lo <= u <= hi) -> lo <= v <= hi.
