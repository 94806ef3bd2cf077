(** Vocabulary for key reuse. *)
From Coq Require Import List.
Import ListNotations.

(** Key [a] was derived from key [b] (or is [b]): [b] is a tail of the path [a]. *)
Definition derived_from {A} (a b : list A) : Prop := exists p, a = p ++ b.

(** No key of the list equals or was derived from another one of the list. *)
Inductive independent {A} : list (list A) -> Prop :=
| ind_nil : independent []
| ind_cons k l : Forall (fun k' => ~ derived_from k k' /\ ~ derived_from k' k) l ->
                 independent l -> independent (k :: l).
