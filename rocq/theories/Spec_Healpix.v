(** How a call of a wrapper is passed on. *)
From Coq Require Import String List.
From Verif Require Import Base Model_Arrays Model_Backend Spec_Fallback.

(** The options that reach the package: each has the value that was given in the call, or else its default. *)
Definition options_given {D A} (defaults kwargs passed : list (string * val backend D A)) : Prop :=
  Forall2 (fun kd kv => fst kv = fst kd /\ (In kv kwargs \/ ~ In (fst kd) (map fst kwargs) /\ snd kv = snd kd)) defaults passed.
(** A call with these options: each at most once, none of them unknown, and none of them an array. *)
Definition options_known {D A} (defaults kwargs : list (string * val backend D A)) : Prop :=
  NoDup (map fst kwargs) /\ (forall k, In k (map fst kwargs) -> In k (map fst defaults)) /\
  Forall (fun kv => exists a, snd kv = Atom a) kwargs.
(** The same outcome, with the arrays of NumPy replaced by arrays of the library [b]. *)
Definition returned {D A} (b : backend) (r r' : result (val backend D A)) : Prop :=
  match r, r' with
  | Ok v, Ok v' => converted (fun c => match c with NumPy => b | _ => c end) v v'
  | Err e, Err e' => e' = e
  | _, _ => False
  end.
