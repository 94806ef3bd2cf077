(** Vocabulary for sampled redshifts and lensed shapes. *)
From Coq Require Import Reals Lra List Permutation.
From Coquelicot Require Import Complex.
From Verif Require Import Base Model_Arrays Spec_Arrays Spec_Numeric.
Local Open Scope R_scope.

(** [F] is the cumulative distribution of the density sampled by [nz] on [z]: at every node
    the fraction of the integral up to there, and linear in between. *)
Definition cumulative_distribution (F : R -> R) (z nz : list R) : Prop :=
  interpolates F z (map F z) /\
  exists g a b v, interpolates g z nz /\ passes_through g z nz /\
    starts_with z a /\ ends_with z b /\ integral g a b v /\ v <> 0 /\
    forall x, In x z -> integral g a x (F x * v).

(** Redshift [x] belongs to the number [u] under inversion of the cumulative distribution;
    and it lies in a grid interval in which there are sources. *)
Definition drawn_from (z nz : list R) (u x : R) : Prop :=
  exists F, cumulative_distribution F z nz /\ F x = u /\
    exists i c d, nth_error z i = Some c /\ nth_error z (S i) = Some d /\ c <= x < d /\ F c < F d.

(** A usable source distribution: increasing grid, non-negative, with some sources. *)
Definition distribution (z nz : list R) : Prop :=
  increasing z /\ length z = length nz /\ (forall f, In f nz -> 0 <= f) /\
  exists i j f, nth_error nz i = Some f /\ 0 < f /\ nth_error z j <> None /\ (j = S i \/ S j = i).

(** [l] is a sorted arrangement of all positions of [v]. *)
Definition sorting_permutation (v l : list nat) : Prop :=
  Permutation l (seq 0 (length v)) /\
  forall i a b va vb, nth_error l i = Some a -> nth_error l (S i) = Some b ->
    nth_error v a = Some va -> nth_error v b = Some vb -> (va <= vb)%nat.

(** The number or row that belongs to a multi-index of the broadcast leading axes. *)
Definition element_for {V} (a : array V) (k : list nat) (v : V) : Prop :=
  exists j, comes_from (ashape a) k j /\ v = aget a j.
Definition row_for {V} (a : array V) (lead : list nat) (m : nat) (k : list nat) (row : list V) : Prop :=
  exists j, comes_from lead k j /\ length row = m /\
    forall i, (i < m)%nat -> nth_error row i = Some (aget a (j ++ [i])).

(** The value [x] respects a lower bound and an upper bound, if there is one. *)
Definition within_bounds (lo : R) (up : option R) (x : R) : Prop :=
  lo <= x /\ forall u, up = Some u -> x <= u.

(** [v] is the first of the values that is accepted. *)
Inductive first_accepted (ok : R -> Prop) : list R -> R -> Prop :=
| accept_now v l : ok v -> first_accepted ok (v :: l) v
| accept_later w l v : ~ ok w -> first_accepted ok l v -> first_accepted ok (w :: l) v.

(** The values drawn for entry [i], one in each round. *)
Definition column (i : nat) (rounds : list (list R)) : list R := map (fun d => nth i d 0) rounds.
