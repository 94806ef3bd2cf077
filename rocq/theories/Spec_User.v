(** Vocabulary for catalogues. *)
From Coq Require Import String List.
Import ListNotations.

(** The batches that a sequence of write calls hands over, in order: positional data,
    then keyword columns if there are any. *)
Definition batches {C} (calls : list (option (list C) * list C)) : list (list C) :=
  flat_map (fun '(d, c) => match d with Some x => [x] | None => [] end ++
                           match c with [] => [] | _ => [c] end) calls.

(** A batch is regular over the names: it has exactly these columns, once each,
    all with the same number of rows. *)
Definition regular {V} (names : list string) (b : list (string * list V)) : Prop :=
  NoDup (map fst b) /\ (forall s, In s (map fst b) <-> In s names) /\
  forall c c', In c b -> In c' b -> length (snd c) = length (snd c').

(** Column [col] of name [s] consists of the columns [s] of all batches in order. *)
Definition stacked {V} (bs : list (list (string * list V))) (s : string) (col : list V) : Prop :=
  exists vs, Forall2 (fun b v => In (s, v) b) bs vs /\ col = concat vs.

(** Two columns of the batch have different lengths. *)
Definition ragged {V} (b : list (string * list V)) : Prop :=
  exists c c', In c b /\ In c' b /\ length (snd c) <> length (snd c').
