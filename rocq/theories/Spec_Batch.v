(** Vocabulary for batched sampling. *)
From Coq Require Import List Arith.
Import ListNotations.

(** Pixel [i] listed [n_i] times, pixels in increasing order. *)
Fixpoint pixels_from (i : nat) (n : list nat) : list nat :=
  match n with [] => [] | c :: n' => repeat i c ++ pixels_from (S i) n' end.
Definition all_points (n : list nat) : list nat := pixels_from 0 n.

(** A batch respects the limit, or holds nothing but copies of one pixel. *)
Definition batch_within (limit : nat) (b : list nat) : Prop :=
  length b <= limit \/ exists i, Forall (eq i) b.
