(** Vocabulary for the search path of the namespace of extensions. Nothing here
    uses the model of the function. *)
From Coq Require Import String Ascii List.
Import ListNotations.
Local Open Scope string_scope.

(** [s] has no dot. *)
Definition no_dot (s : string) : Prop := forall a b, s <> a ++ "." ++ b.

(** An ordinary directory name: not empty and without a separator at its end. *)
Definition plain (s : string) : Prop := s <> "" /\ forall a, s <> a ++ "/".

(** The places where the package [pkg] is found: [sys_path] are the entries
    searched, [places] what each of them contributes. *)
Definition found (sys_path : list string) (places : string -> list string) (p : string) : Prop :=
  exists s, In s sys_path /\ In p (places s).
