(** Vocabulary for functions of several array libraries. *)
From Verif Require Import Base Model_Arrays Model_Backend.

(** The outcome [r], an array of the library [b] or an exception. *)
Definition array_of {D A} (b : backend) (r : result D) : result (val backend D A) :=
  match r with Ok d => Ok (Arr b d) | Err e => Err e end.
(** The same for a tuple of arrays. *)
Definition arrays_of {D A} (b : backend) (r : result (list D)) : result (val backend D A) :=
  match r with Ok ds => Ok (Tup (map (Arr b) ds)) | Err e => Err e end.
