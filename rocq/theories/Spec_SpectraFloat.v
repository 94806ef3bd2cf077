(** Vocabulary for statements about rounded functions. *)
From Coq Require Import Reals.
From Flocq Require Import Core.
From Verif Require Import Model_SpectraFloat.

(** [f] is one of the two doubles that enclose [x] (or [x] itself). *)
Definition faithful (x f : R) : Prop :=
  f = round radix2 fexp64 Zfloor x \/ f = round radix2 fexp64 Zceil x.
