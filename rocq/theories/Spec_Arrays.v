(** Vocabulary for broadcasting and nested values. *)
From Coq Require Import List Arith.
Import ListNotations.

(** Axis [k] counted from the end of a shape; shapes count as padded by ones. *)
Definition axis (s : list nat) (k : nat) : nat := nth k (rev s) 1.

(** Shape [d] is the NumPy broadcast of [shapes]: as many axes as the longest, and every
    axis is the common length of all axes that are not one. *)
Definition is_broadcast (shapes : list (list nat)) (d : list nat) : Prop :=
  (Forall (fun s => length s <= length d) shapes) /\
  (d = [] \/ exists s, In s shapes /\ length s = length d) /\
  forall k, (forall s, In s shapes -> axis s k = 1 \/ axis s k = axis d k) /\
            (axis d k = 1 \/ exists s, In s shapes /\ axis s k = axis d k).

(** Multi-index [i] lies inside shape [s]. *)
Definition inside (s i : list nat) : Prop := Forall2 (fun x n => x < n) i s.

(** Element [j] of an array of shape [s] is the one that a broadcast places at [i]:
    counted from the end, the index is the same except on axes of length one. *)
Definition comes_from (s i j : list nat) : Prop :=
  length j = length s /\
  forall k, k < length s ->
    nth k (rev j) 0 = if axis s k =? 1 then 0 else nth k (rev i) 0.

(** The multi-indices [ks] are all those inside shape [d], each once, in the order in which
    the last index varies fastest. *)
Inductive comes_before : list nat -> list nat -> Prop :=
| before_here a b l m : a < b -> comes_before (a :: l) (b :: m)
| before_later a l m : comes_before l m -> comes_before (a :: l) (a :: m).
Definition row_major (d : list nat) (ks : list (list nat)) : Prop :=
  (forall k, In k ks <-> inside d k) /\
  forall i j k l, i < j -> nth_error ks i = Some k -> nth_error ks j = Some l -> comes_before k l.
