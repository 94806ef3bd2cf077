(** Vocabulary for the shapes of random draws. *)
From Coq Require Import List Arith.
From Verif Require Import Spec_Arrays.
Import ListNotations.

(** An array of shape [s] can be broadcast to shape [t]: not more axes, and each axis,
    counted from the end, is one or that of [t]. *)
Definition fits (t s : list nat) : Prop :=
  length s <= length t /\ forall k, axis s k = 1 \/ axis s k = axis t k.

(** NumPy's rule for the shape [s] of a draw with parameters of shapes [params] and an
    optional requested shape: without a request the broadcast of the parameters,
    otherwise the request, to which all parameters must fit. *)
Definition numpy_draw (params : list (list nat)) (request : option (list nat)) (s : list nat) : Prop :=
  match request with
  | None => is_broadcast params s
  | Some t => s = t /\ Forall (fits t) params
  end.

(** The documented rule of [glass.jax]: a requested shape must match that of the
    parameters broadcast together, unless that is a scalar. *)
Definition documented_draw (params : list (list nat)) (request : option (list nat)) (s : list nat) : Prop :=
  exists d, is_broadcast params d /\
  match request with
  | None => s = d
  | Some t => s = t /\ (d = [] \/ d = t)
  end.
